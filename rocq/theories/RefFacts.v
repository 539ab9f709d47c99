(** The expressions a type refers to: invariants needed by the second pass ([depth]). *)
From Verif Require Import Base Grammar WellFormed Analysis AnalysisFacts Typing TypeRules SurfaceFacts.
Set Implicit Arguments. Unset Strict Implicit.
Open Scope string_scope. Open Scope nat_scope. Open Scope list_scope.

(** The expression [p] has the child [c]; the slot of the type of spans is not an expression. *)
Definition unit_at (T : list ity) (i : nat) : Prop := exists u, nth_error T i = Some u /\ is_unit_kind u = true.
Definition kid (G : grammar) (p c : nat) : Prop :=
  p < length (exprs G) - 1 /\ exists e, expr_of G p = Some e /\ In c (children e).
Definition root (G : grammar) (x : nat) : Prop := exists rl, In rl (rules G) /\ rexpr rl = x.
(** The expressions form trees, one for each rule. *)
Record forest (G : grammar) : Prop := {
  fo_parent : forall p q c, kid G p c -> kid G q c -> p = q;
  fo_root : forall x p, root G x -> ~ kid G p x;
  fo_bound : forall x, root G x -> x < length (exprs G) - 1;
  fo_cover : forall i, i < length (exprs G) - 1 -> root G i \/ exists p, kid G p i;
  fo_names : NoDup (map rname (rules G))
}.

Definition refs (t : ity) : list nat :=
  match t with IRegular (TOptional j) | IRegular (TList j) => [j] | IRegular (TTuple l) => l | _ => [] end.
Definition stable (T : list ity) (y : nat) : Prop := exists u, nth_error T y = Some u /\ settledb u = true /\ is_unit_kind u = false.

Section Refs.
Variable G : grammar.
Variable E : tenv.
Hypothesis HG : typable G.
Variable own : nat -> string.
Hypothesis HO : owned G own.
Hypothesis HF : forest G.
Local Notation last := (length (exprs G) - 1).

(** From [x] down to [j] through expressions with data. *)
Inductive via (T : list ity) : nat -> nat -> Prop :=
| via_kid x j : stable T x -> kid G x j -> via T x j
| via_step x y j : stable T x -> kid G x y -> via T y j -> via T x j.
Definition justified (T : list ity) (x j : nat) : Prop :=
  j = last \/ exists x', (x' = x \/ root G x') /\ via T x' j.
Definition RefInv (T : list ity) : Prop := forall x t j, nth_error T x = Some t -> In j (refs t) -> justified T x j.

Lemma via_mono T T' x j : (forall y, stable T y -> stable T' y) -> via T x j -> via T' x j.
Proof. intros M. induction 1; [apply via_kid; auto|eapply via_step; eauto]. Qed.
Lemma justified_mono T T' x j : (forall y, stable T y -> stable T' y) -> justified T x j -> justified T' x j.
Proof. intros M [->|(x' & D & V)]; [left; reflexivity|right; exists x'; split; [exact D|exact (via_mono M V)]]. Qed.
Lemma justified_up T i c j : stable T i -> kid G i c -> justified T c j -> justified T i j.
Proof.
  intros S1 K [->|(x' & [-> | R] & V)]; [left; reflexivity| |]; right.
  - exists i. split; [auto|]. exact (via_step S1 K V).
  - exists x'. auto.
Qed.
Lemma justified_kid T i c : stable T i -> kid G i c -> justified T i c.
Proof. intros S1 K. right. exists i. split; [auto|]. apply via_kid; assumption. Qed.

(** Storing a type over an unsettled one. *)
Lemma stable_set T i u t : nth_error T i = Some u -> settledb u = false -> forall y, stable T y -> stable (update T i t) y.
Proof.
  intros Ei Su y (v & Ev & Sv & Nv). assert (L : i < length T) by (apply nth_error_Some; congruence).
  exists v. rewrite nth_update by exact L. destruct (Nat.eqb_spec y i) as [->|D]; [congruence|auto].
Qed.
Lemma stable_at T i t : i < length T -> settledb t = true -> is_unit_kind t = false -> stable (update T i t) i.
Proof. intros L S1 N. exists t. rewrite nth_update, Nat.eqb_refl by exact L. auto. Qed.
Lemma refs_stable t j : In j (refs t) -> settledb t = true /\ is_unit_kind t = false.
Proof. destruct t as [| | | |[]]; cbn; intros H; try contradiction; auto. Qed.

Lemma set_refs T i u t : nth_error T i = Some u -> settledb u = false -> RefInv T ->
  (forall j, In j (refs t) -> justified (update T i t) i j) -> RefInv (update T i t).
Proof.
  intros Ei Su H N x v j. assert (L : i < length T) by (apply nth_error_Some; congruence).
  rewrite nth_update by exact L. destruct (Nat.eqb_spec x i) as [->|D]; intros Ev Ij.
  - injection Ev as <-. exact (N j Ij).
  - exact (justified_mono (stable_set t Ei Su) (H x v j Ev Ij)).
Qed.

Lemma last_unset T i path : Inv G path T -> nth_error T i = Some IInfer -> i < last.
Proof.
  intros HI Ei. assert (L : i < length T) by (apply nth_error_Some; congruence). destruct (iv_span HI) as (s & ES). rewrite (iv_len HI) in *.
  assert (i <> last) by congruence. lia.
Qed.
Lemma root_unset path T id rl r : Inv G path T -> find_rule G id = Some rl -> nth_error T (rexpr rl) = Some (IRec r) -> rexpr rl < last.
Proof. intros HI F _. apply (fo_bound HF). exists rl. split; [exact (proj2 (find_rule_name F))|reflexivity]. Qed.

(** The references of the types computed by the rewriting rules. *)
Lemma reduce_tuple_refs path T l t j : Inv G path T -> l <> [] -> Forall (known_ty T) l -> reduce_tuple T l = WOk t -> In j (refs t) ->
  In j l \/ exists c u, In c l /\ nth_error T c = Some u /\ In j (refs u).
Proof.
  intros HI NE F H Ij. pose proof (Inv_flat HI) as FL.
  assert (D : Forall (typed T) l \/ exists i r, In i l /\ nth_error T i = Some (IRec r)).
  { clear NE H. induction F as [|i l (u & Eu & Nu) F IH]; [left; constructor|]. destruct IH as [IH|(q & r & I1 & I2)]; [|right; exists q, r; cbn; auto].
    destruct (is_rec_ty u) eqn:R; [right; destruct u; try discriminate; exists i, r; cbn; auto|left; constructor; [exists u; auto|exact IH]]. }
  destruct D as [D|(i & r & I1 & I2)].
  - rewrite (reduce_tuple_spec FL NE D) in H.
    assert (CON : forall c k, In c l -> In k (contrib T c) -> k = c \/ exists u, nth_error T c = Some u /\ In k (refs u)).
    { intros c k _ Ik. unfold contrib in Ik. destruct (nth_error T c) as [u|] eqn:Eu; [|destruct Ik as [<-|[]]; auto].
      destruct u as [| | | |[| |?|?|?|?]]; cbn in Ik; try contradiction; try (destruct Ik as [<-|[]]; auto). right. eexists. split; [reflexivity|exact Ik]. }
    remember (flat_map (contrib T) l) as fl eqn:EF. destruct fl as [|k [|k2 ks]].
    + injection H as <-. destruct (forallb _ l); destruct Ij.
    + apply tget_ok in H. right. assert (Ik : In k (flat_map (contrib T) l)) by (rewrite <- EF; left; reflexivity).
      apply in_flat_map in Ik. destruct Ik as (c & Ic & Ik). assert (k = c).
      { unfold contrib in Ik. destruct (nth_error T c) as [u|] eqn:Eu; [|destruct Ik as [<-|[]]; auto].
        destruct u as [| | | |[| |?|?|js|?]]; cbn in Ik; try contradiction; try (destruct Ik as [<-|[]]; auto). exfalso.
        destruct (FL _ _ Eu) as [L2 _]. apply in_split in Ic. destruct Ic as (l1 & l2 & ->). rewrite flat_map_app in EF. cbn [flat_map] in EF.
        unfold contrib at 2 in EF. rewrite Eu in EF. apply (f_equal (@length nat)) in EF. rewrite !app_length in EF. cbn [length] in EF. lia. }
      subst k. exists c, t. auto.
    + injection H as <-. cbn [refs] in Ij. rewrite EF in Ij. apply in_flat_map in Ij. destruct Ij as (c & Ic & Ik).
      destruct (CON c j Ic Ik) as [->|(u & Eu & Iu)]; [auto|right; exists c, u; auto].
  - pose proof (iv_ty HI I2 ltac:(discriminate)) as TY.
    destruct (@reduce_tuple_rec T FL l t F H ltac:(exists i, r; split; [exact I1|]; split; [exact I2|exact (proj1 TY)])) as (q & -> & _). destruct Ij.
Qed.

(** The type of a child, justified at its parent. *)
Lemma child_refs T i t c u j : nth_error T i = Some IInfer -> RefInv T -> kid G i c -> nth_error T c = Some u -> In j (refs u) ->
  settledb t = true -> is_unit_kind t = false -> justified (update T i t) i j.
Proof.
  intros Ei H K Ec Ij S1 N. assert (L : i < length T) by (apply nth_error_Some; congruence).
  refine (justified_up (stable_at L S1 N) K _). refine (justified_mono (stable_set t Ei eq_refl) _). exact (H c u j Ec Ij).
Qed.

Lemma set_local_refs R path i e T t : Inv G path T -> expr_of G i = Some e -> nth_error T i = Some IInfer -> tyok G path T t -> local G E R path T e t ->
  RefInv T -> RefInv (update T i t).
Proof.
  intros HI Ee Ei TY LO HR. refine (set_refs Ei eq_refl HR _). intros j Ij. destruct (refs_stable Ij) as [St Nu].
  assert (L : i < length T) by (apply nth_error_Some; congruence). pose proof (last_unset HI Ei) as LA.
  assert (KID : forall c, In c (children e) -> kid G i c) by (intros c Ic; split; [exact LA|exists e; auto]).
  assert (UN : forall c tc, In c (children e) -> refs tc = [c] -> reduce_unary T c tc = WOk t -> justified (update T i t) i j).
  { intros c tc Ic Er H. unfold reduce_unary in H. apply wbind_ok in H. destruct H as (u & Eu & H). apply WOk_inj' in H. subst t.
    assert (X : justified (update T i tc) i c \/ True) by auto. clear X.
    destruct u as [|r| | |u]; cbn [refs] in Ij; try contradiction; rewrite Er in Ij; destruct Ij as [<-|[]];
      apply justified_kid; try (apply stable_at; assumption); apply KID, Ic. }
  assert (TU : forall l, l <> [] -> Forall (known_ty T) l -> (forall c, In c l -> c = last \/ In c (children e)) -> reduce_tuple T l = WOk t -> justified (update T i t) i j).
  { intros l NE F SUB H. destruct (reduce_tuple_refs HI NE F H Ij) as [Il|(c & u & Ic & Ec & Iu)].
    - destruct (SUB j Il) as [->|Ic]; [left; reflexivity|]. apply justified_kid; [apply stable_at; assumption|apply KID, Ic].
    - destruct (SUB c Ic) as [->|Ic']; [exfalso; destruct (iv_span HI) as (s & ES); rewrite (iv_len HI) in ES; assert (u = IRegular (TRust s)) by congruence; subst u; destruct Iu|].
      exact (child_refs Ei HR (KID c Ic') Ec Iu St Nu). }
  destruct e as [lit| |cls|id|p|l|l|c|c|c|c|c|c b f|c u|c|c]; cbn [local] in LO.
  - subst t. destruct Ij.
  - subst t. destruct Ij.
  - subst t. destruct Ij.
  - destruct LO as (rl & F & [[_ ->]|Er]); [destruct Ij|]. assert (RT : root G (rexpr rl)) by (exists rl; split; [exact (proj2 (find_rule_name F))|reflexivity]).
    refine (justified_mono (stable_set t Ei eq_refl) _). destruct (HR _ _ _ Er Ij) as [->|(x' & [-> | R'] & V)]; [left; reflexivity|right; eexists; split; [right; exact RT|exact V]|right; eauto].
  - subst t. destruct Ij.
  - destruct LO as [F H]. apply (TU l); auto. intros ->. exact (tg_seq HG Ee).
  - destruct LO as [F [->|(fuel & ts & F2 & _ & FT & H)]]; [destruct Ij|]. apply reduce_sum_spec in H. destruct H as [_ CT].
    assert (IN : forall u, In u (non_rec ts) -> u = t -> justified (update T i t) i j).
    { intros u Iu ->. apply filter_In in Iu. destruct Iu as [Iu _]. assert (X : exists c, In c l /\ typed_as G T c t).
      { clear - F2 Iu. induction F2 as [|c v l ts H F2 IH]; [destruct Iu|]. destruct Iu as [->|Iu]; [exists c; cbn; auto|]. destruct (IH Iu) as (c' & A & B). exists c'. cbn. auto. }
      destruct X as (c & Ic & Hc). exact (child_refs Ei HR (KID c Ic) (Hc (or_introl St)) Ij St Nu). }
    destruct CT as [t l0 EQ _|t l1 l2 _ EQ _ _ _|_ _ _|r EQ P]; try destruct Ij.
    + apply (IN t); [rewrite EQ; left; reflexivity|reflexivity].
    + apply (IN t); [rewrite EQ; apply in_or_app; right; left; reflexivity|reflexivity].
  - destruct LO as [K H]. exact (UN c (IRegular (TList c)) (or_introl eq_refl) eq_refl H).
  - destruct LO as [K H]. exact (UN c (IRegular (TList c)) (or_introl eq_refl) eq_refl H).
  - destruct LO as [K H]. exact (UN c (IRegular (TOptional c)) (or_introl eq_refl) eq_refl H).
  - subst t. destruct Ij.
  - subst t. destruct Ij.
  - subst t. unfold action_type in Ij. destruct f as [[|s [|]]|]; try destruct Ij. destruct (ret_of E s) as [[|]|]; destruct Ij.
  - subst t. destruct (tg_asc HG Ee) as [->|[->|(s & ->)]]; destruct Ij.
  - destruct LO as [K H]. rewrite (iv_len HI) in H. apply (TU [last; c]); auto; [discriminate| |].
    + constructor; [|constructor; [exact K|constructor]]. destruct (iv_span HI) as (s & ES). rewrite (iv_len HI) in ES. eexists. split; [exact ES|discriminate].
    + intros k [<-|[<-|[]]]; [auto|right; left; reflexivity].
  - destruct LO as [_ ->]. destruct Ij.
Qed.

(** Copying the type of a rule over a recursive type. *)
Lemma reduce_rec_refs path T x r t : Inv G path T -> nth_error T x = Some (IRec r) -> reduce_rec G T (IRec r) = WOk t -> RefInv T -> RefInv (update T x t).
Proof.
  intros HI Ex H HR. refine (set_refs Ex eq_refl HR _). intros j Ij. cbn [reduce_rec] in H. destruct (is_poly r); [injection H as <-; destruct Ij|].
  apply first_non_rec_ok in H. destruct H as [->|(id & rl & I1 & F & Eu & R)]; [destruct Ij|].
  assert (RT : root G (rexpr rl)) by (exists rl; split; [exact (proj2 (find_rule_name F))|reflexivity]).
  refine (justified_mono (stable_set t Ex eq_refl) _). destruct (HR _ _ _ Eu Ij) as [->|(x' & [-> | R'] & V)]; [left; reflexivity|right; eexists; split; [right; exact RT|exact V]|right; eauto].
Qed.

(** Expressions whose type does not depend on their children keep it until it becomes unit. *)
Definition const_ty (e : expr) : option ity :=
  match e with
  | EAsc _ u => Some u
  | EStr _ | ENot _ | EAnd _ => Some IInvisible
  | EAny | EClass _ => Some (IRegular TAtom)
  | EAct _ b f => Some (action_type E b f)
  | EExt _ => Some IExternal
  | ERange _ => Some (IRegular (TRust (range_ty E)))
  | _ => None
  end.
Lemma const_not_rec i e u : expr_of G i = Some e -> const_ty e = Some u -> is_rec_ty u = false /\ u <> IInfer.
Proof.
  intros Ee C. destruct e; cbn in C; try discriminate; injection C as <-; try (split; [reflexivity|discriminate]).
  - unfold action_type. destruct f as [[|s [|]]|]; try (split; [reflexivity|discriminate]). destruct (ret_of E s) as [[|]|]; (split; [reflexivity|discriminate]).
  - destruct (tg_asc HG Ee) as [->|[->|(s & ->)]]; split; (reflexivity || discriminate).
Qed.
(** An ascription above the expression. *)
Definition ascribed (s : string) (i : nat) : Prop := exists a c, expr_of G a = Some (EAsc c (IRegular (TRust s))) /\ reaches (exprs G) c i.
Definition ConstInv (T : list ity) : Prop := forall i e u t, i < last -> expr_of G i = Some e -> const_ty e = Some u -> nth_error T i = Some t ->
  t = IInfer \/ t = u \/ (is_unit_kind t = true /\ exists p, kid G p i /\ unit_at T p) \/ (u = IExternal /\ exists s, t = IRegular (TRust s) /\ ascribed s i).
Lemma unit_set T x v t p : nth_error T x = Some v -> is_unit_kind v = false -> unit_at T p -> unit_at (update T x t) p.
Proof.
  intros Ex Ux (u & Eu & Uu). exists u. rewrite nth_update by (apply nth_error_Some; congruence). destruct (Nat.eqb_spec p x) as [->|D]; [congruence|auto].
Qed.
Lemma const_set T x v t i u w : nth_error T x = Some v -> is_unit_kind v = false ->
  (w = IInfer \/ w = u \/ (is_unit_kind w = true /\ exists p, kid G p i /\ unit_at T p) \/ (u = IExternal /\ exists s, w = IRegular (TRust s) /\ ascribed s i)) ->
  w = IInfer \/ w = u \/ (is_unit_kind w = true /\ exists p, kid G p i /\ unit_at (update T x t) p) \/ (u = IExternal /\ exists s, w = IRegular (TRust s) /\ ascribed s i).
Proof. intros Ex Ux [Q|[Q|[(Q & p & K & U)|Q]]]; auto. right. right. left. split; [exact Q|]. exists p. split; [exact K|exact (unit_set t Ex Ux U)]. Qed.
Lemma set_const R path i e T t : nth_error T i = Some IInfer -> expr_of G i = Some e -> local G E R path T e t -> ConstInv T -> ConstInv (update T i t).
Proof.
  intros Ei Ee LO H k e' u v LK Ek C. assert (L : i < length T) by (apply nth_error_Some; congruence). rewrite nth_update by exact L.
  destruct (Nat.eqb_spec k i) as [->|D]; intros Ev; [|exact (const_set t Ei eq_refl (H k e' u v LK Ek C Ev))]. injection Ev as <-. assert (e = e') by congruence. subst e'.
  destruct e; cbn in C; try discriminate; injection C as <-; cbn in LO; auto. destruct LO as [_ LO]. auto.
Qed.
(** Children are typed before their parent. *)
Definition KidsInv (T : list ity) : Prop := forall i e t, i < last -> expr_of G i = Some e -> nth_error T i = Some t -> t <> IInfer -> is_unit_kind t = false ->
  Forall (known_ty T) (visits e).
Lemma local_known R path T e t : local G E R path T e t -> Forall (known_ty T) (visits e).
Proof. destruct e; cbn; try constructor; try tauto; constructor. Qed.
Lemma known_set T i u t : nth_error T i = Some u -> t <> IInfer -> forall c, known_ty T c -> known_ty (update T i t) c.
Proof.
  intros Ei N c (v & Ev & Nv). unfold known_ty. rewrite nth_update by (apply nth_error_Some; congruence). destruct (Nat.eqb_spec c i); eauto.
Qed.
Lemma set_kids R path i e T t : nth_error T i = Some IInfer -> t <> IInfer -> expr_of G i = Some e -> local G E R path T e t -> KidsInv T -> KidsInv (update T i t).
Proof.
  intros Ei NI Ee LO H k e' v LK Ek. assert (L : i < length T) by (apply nth_error_Some; congruence). rewrite nth_update by exact L.
  destruct (Nat.eqb_spec k i) as [->|D]; intros Ev Nv U; (eapply Forall_impl; [apply (known_set Ei NI)|]).
  - injection Ev as <-. assert (e = e') by congruence. subst e'. exact (local_known LO).
  - exact (H k e' v LK Ek Ev Nv U).
Qed.

Definition Shape (T : list ity) : Prop := RefInv T /\ ConstInv T /\ KidsInv T.
Lemma set_shape R path i e T t : Inv G path T -> expr_of G i = Some e -> nth_error T i = Some IInfer -> tyok G path T t -> local G E R path T e t ->
  Shape T -> Shape (update T i t).
Proof.
  intros I1 Ee Ei TY LO (P & A & K). split; [exact (set_local_refs I1 Ee Ei TY LO P)|]. split; [exact (set_const Ei Ee LO A)|].
  refine (set_kids Ei _ Ee LO K). intros ->. exact TY.
Qed.
Lemma leave_shape path id rl T t1 t2 : Inv G path T -> find_rule G id = Some rl -> nth_error T (rexpr rl) = Some t1 -> reduce_rec_entry_point G T id t1 = WOk t2 ->
  tyok G path T t2 -> Shape T -> Shape (update T (rexpr rl) t2).
Proof.
  intros I1 F E1 E2 TY P. destruct t1 as [|r| | |t1]; try (cbn in E2; injection E2 as <-; rewrite (update_same E1); exact P).
  cbn [reduce_rec_entry_point] in E2. apply wbind_ok in E2. destruct E2 as (e & Ee & E2). destruct (e =? id)%string; [|injection E2 as <-; rewrite (update_same E1); exact P].
  assert (N2 : t2 <> IInfer) by (intros ->; exact TY).
  destruct P as (P & A & K). split; [exact (reduce_rec_refs I1 E1 E2 P)|]. assert (L : rexpr rl < length T) by (apply nth_error_Some; congruence). split.
  - intros k e' u v LK Ek C. rewrite nth_update by exact L.
    destruct (Nat.eqb_spec k (rexpr rl)) as [->|D]; intros Ev; [|exact (const_set t2 E1 eq_refl (A k e' u v LK Ek C Ev))]. exfalso.
    destruct (const_not_rec Ek C) as [Q1 Q2]. destruct (A _ _ _ _ LK Ek C E1) as [Q|[Q|[[Q _]|(_ & s & Q & _)]]]; try discriminate. subst u. discriminate.
  - intros k e' v LK Ek. rewrite nth_update by exact L. destruct (Nat.eqb_spec k (rexpr rl)) as [->|D]; intros Ev Nv U; (eapply Forall_impl; [apply (known_set E1 N2)|]).
    + exact (K _ _ _ LK Ek E1 ltac:(discriminate) eq_refl).
    + exact (K k e' v LK Ek Ev Nv U).
Qed.

Theorem surface_shape fuel : forall rs st st', incl rs (rules G) -> Inv G [] (tys st) -> surface_from G E fuel rs st = WOk st' ->
  Shape (tys st) -> Shape (tys st').
Proof.
  intros rs st st' SUB HI H HR.
  refine (@surface_pres G E HG own HO (fun _ T => Shape T) (fun _ _ => True) (fun _ _ _ => True) _ _ _ _ _ _ _ fuel rs st st' SUB HI H HR); auto.
  - intros path i e T t I1 _ _ Ee Ei TY LO P. exact (set_shape I1 Ee Ei TY LO P).
  - intros path id rl T t1 t2 I1 F _ E1 N1 _ E2 TY P. exact (leave_shape I1 F E1 E2 TY P).
Qed.
Theorem sexpr_shape fuel : forall path i st t st', path_ok G path -> here G own path (tys st) i -> Inv G path (tys st) -> sexpr G E fuel path i st = WOk (t, st') ->
  Shape (tys st) -> Shape (tys st').
Proof.
  intros path i st t st' PO HH HI H HR.
  refine (@sexpr_pres G E HG own HO (fun _ T => Shape T) (fun _ _ => True) (fun _ _ _ => True) _ _ _ _ _ _ fuel path i st t st' PO HH HI I H HR); auto.
  - intros path' i' e T u I1 _ _ Ee Ei TY LO P. exact (set_shape I1 Ee Ei TY LO P).
  - intros path' id rl T t1 t2 I1 F _ E1 N1 _ E2 TY P. exact (leave_shape I1 F E1 E2 TY P).
Qed.
End Refs.
