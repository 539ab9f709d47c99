(** Invariants of the second pass of type inference ([depth]). *)
From Verif Require Import Base Grammar WellFormed Analysis AnalysisFacts Typing TypeRules SurfaceFacts RefFacts.
Set Implicit Arguments. Unset Strict Implicit.
Open Scope string_scope. Open Scope nat_scope. Open Scope list_scope.

Definition no_rec (T : list ity) : Prop := forall i t, nth_error T i = Some t -> is_rec_ty t = false.
Definition cardof (T : list ity) (c : nat) : nat := match nth_error T c with Some u => icard u | None => 0 end.
Definition rust (t : ity) : Prop := exists s, t = IRegular (TRust s).

(** Errors are never forgotten. *)
Section Errors.
Variable G : grammar.
Variable E : tenv.
Definition keeps_err (st st' : tst) : Prop := terr st = true -> terr st' = true.
Lemma sexpr_err fuel : forall path i st t st', sexpr G E fuel path i st = WOk (t, st') -> keeps_err st st'.
Proof.
  induction fuel as [|k IH]; intros path i st t st' H; [discriminate|]. cbn [sexpr] in H. apply wbind_ok in H. destruct H as (u & Eu & H).
  destruct u as [|r| | |u]; try (apply WOk_inj', pair_inj in H; destruct H as [_ <-]; intros X; exact X).
  destruct (expr_of G i) as [e|]; [|discriminate]. apply wbind_ok in H. destruct H as ([t1 st1] & E1 & H). cbn [fst snd] in H.
  apply wbind_ok in H. destruct H as (t2 & E2 & H). apply WOk_inj', pair_inj in H. destruct H as [_ <-]. unfold keeps_err, tset. cbn [terr].
  assert (LEAF : forall u, WOk (u, st) = WOk (t1, st1) -> keeps_err st st1).
  { intros v K. apply WOk_inj', pair_inj in K. destruct K as [_ <-]. intros X; exact X. }
  assert (CHILD : forall j v, wbind (sexpr G E k path j st) (fun q => WOk (v q, snd q)) = WOk (t1, st1) -> keeps_err st st1).
  { intros j v K. apply wbind_ok in K. destruct K as ([a b] & Ka & K). cbn [snd] in K. apply WOk_inj', pair_inj in K. destruct K as [_ <-]. exact (IH _ _ _ _ _ Ka). }
  assert (SEQ : forall l s ts s', sexprs (sexpr G E k path) l s = WOk (ts, s') -> keeps_err s s').
  { induction l as [|c l IL]; intros s ts s' K; cbn [sexprs] in K; [apply WOk_inj', pair_inj in K; destruct K as [_ <-]; intros X; exact X|].
    apply wbind_ok in K. destruct K as ([a b] & Ka & K). apply wbind_ok in K. destruct K as ([x y] & Kx & K). cbn [fst snd] in *.
    apply WOk_inj', pair_inj in K. destruct K as [_ <-]. intros X. exact (IL _ _ _ Kx (IH _ _ _ _ _ Ka X)). }
  destruct e as [lit| |cls|id|p|l|l|j|j|j|j|j|j b f|j u|j|j]; cbn [swalk] in E1; try (exact (LEAF _ E1)).
  - unfold srule in E1. destruct (find_rule G id) as [rl|]; [|discriminate]. apply wbind_ok in E1. destruct E1 as (v & Ev & E1).
    destruct v as [|r| | |v]; try (exact (LEAF _ E1)). destruct (existsb (String.eqb id) path); [exact (LEAF _ E1)|].
    apply wbind_ok in E1. destruct E1 as ([a b] & Ka & K). apply wbind_ok in K. destruct K as (x & Kx & K). cbn [fst snd] in *.
    apply WOk_inj', pair_inj in K. destruct K as [_ <-]. exact (IH _ _ _ _ _ Ka).
  - apply wbind_ok in E1. destruct E1 as ([ts sc] & Es & E1). cbn [snd] in E1. apply WOk_inj', pair_inj in E1. destruct E1 as [_ <-]. exact (SEQ _ _ _ _ Es).
  - apply wbind_ok in E1. destruct E1 as ([ts sc] & Es & E1). cbn [fst snd] in E1. apply wbind_ok in E1. destruct E1 as (r & Er & E1). apply WOk_inj' in E1.
    destruct r as [v|]; apply pair_inj in E1; destruct E1 as [_ <-]; [exact (SEQ _ _ _ _ Es)|intros _; reflexivity].
  - exact (CHILD _ _ E1).
  - exact (CHILD _ _ E1).
  - exact (CHILD _ _ E1).
  - exact (CHILD _ (fun q => IRegular (TTuple [length (tys (snd q)) - 1; j])) E1).
  - exact (CHILD _ _ E1).
Qed.
Lemma check_err t u st st' : check_ascription E t u st = WOk st' -> keeps_err st st'.
Proof. unfold check_ascription. intros H. apply wbind_ok in H. destruct H as (b & _ & H). apply WOk_inj' in H. subst st'. destruct b; intros X; [exact X|reflexivity]. Qed.
Lemma dexprs_err vd : (forall i st st', vd i st = WOk st' -> keeps_err st st') -> forall l st st', dexprs vd l st = WOk st' -> keeps_err st st'.
Proof.
  intros V. induction l as [|i l IH]; intros st st' H; cbn [dexprs] in H; [injection H as <-; intros X; exact X|].
  apply wbind_ok in H. destruct H as (s & Hs & H). intros X. exact (IH _ _ H (V _ _ _ Hs X)).
Qed.
Lemma dexpr_err fuel sfuel : forall uu asc i st st', dexpr G E fuel sfuel uu asc i st = WOk st' -> keeps_err st st'.
Proof.
  induction fuel as [|k IH]; intros uu asc i st st' H; [discriminate|]. cbn [dexpr] in H. apply wbind_ok in H. destruct H as (t & _ & H).
  destruct (expr_of G i) as [e|]; [|discriminate]. cbv zeta in H.
  assert (W : forall uu st st', dwalk E (sexpr G E sfuel []) (dexpr G E k sfuel) uu asc e st = WOk st' -> keeps_err st st').
  { clear H. intros u s s' H. destruct e as [lit| |cls|id|p|l|l|j|j|j|j|j|j b f|j v|j|j]; cbn [dwalk] in H; try (injection H as <-; intros X; exact X); try (exact (IH _ _ _ _ _ H)).
    - destruct asc; refine (dexprs_err _ H); intros c x x' K; [|exact (IH _ _ _ _ _ K)]. apply wbind_ok in K. destruct K as (y & _ & K). exact (IH _ _ _ _ _ K).
    - refine (dexprs_err _ H). intros c x x'. apply IH.
    - apply wbind_ok in H. destruct H as ([tc sc] & Ec & H). intros X. exact (IH _ _ _ _ _ H (sexpr_err Ec X)).
    - apply wbind_ok in H. destruct H as (s1 & H1 & H). apply wbind_ok in H. destruct H as (s2 & H2 & H). intros X. apply (IH _ _ _ _ _ H).
      assert (X1 : terr s1 = true) by (destruct asc; [exact (check_err H1 X)|congruence]).
      destruct u; [congruence|]. apply wbind_ok in H2. destruct H2 as ([tc sc] & Ec & H2). apply WOk_inj' in H2. subst s2. exact (sexpr_err Ec X1). }
  destruct uu; [exact (W _ _ _ H)|]. destruct asc as [aty|]; [|exact (W _ _ _ H)]. destruct (is_external t); [exact (W _ _ _ H)|].
  apply wbind_ok in H. destruct H as (s & Hs & H). intros X. exact (W _ _ _ H (check_err Hs X)).
Qed.
End Errors.

(** The expressions whose type is needed for the type of [x]: not below predicates, actions and ascriptions. *)
Inductive spos (G : grammar) : nat -> nat -> Prop :=
| sp_self x : spos G x x
| sp_child x e c y : expr_of G x = Some e -> In c (visits e) -> spos G c y -> spos G x y.
Lemma spos_more G x y e c : spos G x y -> expr_of G y = Some e -> In c (visits e) -> spos G x c.
Proof. induction 1 as [x|x e' d y Ex Id R IH]; intros; econstructor; eauto using sp_self. Qed.
(** The rule [id] is called, and the type of the call is needed for the type of [x]. *)
Definition calls (G : grammar) (id : string) (x : nat) : Prop := exists j, spos G x j /\ expr_of G j = Some (ENT id).
Lemma calls_up G id x e c : expr_of G x = Some e -> In c (visits e) -> calls G id c -> calls G id x.
Proof. intros Ex Ic (j & R & Ej). exists j. split; [exact (sp_child Ex Ic R)|exact Ej]. Qed.

Section Depth.
Variable G : grammar.
Variable E : tenv.
Hypothesis HG : typable G.
Variable own : nat -> string.
Hypothesis HO : owned G own.
Hypothesis HF : forest G.
Local Notation last := (length (exprs G) - 1).
(** The rules whose expressions have types that fit. *)
Variable good : string -> Prop.

Lemma kid_lt p c : kid G p c -> c < p.
Proof. intros (_ & e & Ee & Ic). pose proof (tg_children HG Ee) as F. rewrite Forall_forall in F. exact (F c Ic). Qed.
Lemma reaches_last x y : x < last -> reaches (exprs G) x y -> y < last.
Proof. intros L R. pose proof (reaches_le HG R). lia. Qed.
(** The last step of a descent. *)
Lemma reaches_parent x y : x < last -> reaches (exprs G) x y -> y = x \/ exists p, reaches (exprs G) x p /\ kid G p y.
Proof.
  intros L R. induction R as [x|x e c y Ex Ic R IH]; [auto|]. right.
  assert (K : kid G x c) by (split; [exact L|exists e; auto]). pose proof (kid_lt K).
  destruct IH as [->|(p & R' & Kp)]; [lia|exists x; split; [constructor|exact K]|].
  exists p. split; [exact (rc_child Ex Ic R')|exact Kp].
Qed.
Lemma reaches_kid x y p : x < last -> reaches (exprs G) x y -> kid G p y -> y <> x -> reaches (exprs G) x p.
Proof.
  intros L R K N. destruct (reaches_parent L R) as [->|(q & R' & K')]; [congruence|]. rewrite (fo_parent HF K K'). exact R'.
Qed.
Lemma reaches_more x y c : reaches (exprs G) x y -> kid G y c -> reaches (exprs G) x c.
Proof.
  induction 1 as [x|x e d y Ex Id R IH]; intros K.
  - destruct K as (_ & e & Ee & Ic). exact (rc_child Ee Ic (rc_self _ _)).
  - exact (rc_child Ex Id (IH K)).
Qed.

(** Types that are the same, up to the discovery of the Rust type of an external. *)
Definition opaque (t : ity) : Prop := t = IExternal \/ rust t.
Definition sim (t u : ity) : Prop := t = u \/ (opaque t /\ opaque u).
(** The same structure, through the table, up to opaque types. *)
Inductive eqv (T : list ity) : ity -> ity -> Prop :=
| eqv_opaque t u : opaque t -> opaque u -> eqv T t u
| eqv_unit t u : is_unit_kind t = true -> is_unit_kind u = true -> eqv T t u
| eqv_atom : eqv T (IRegular TAtom) (IRegular TAtom)
| eqv_optional i j a b : nth_error T i = Some a -> nth_error T j = Some b -> eqv T a b -> eqv T (IRegular (TOptional i)) (IRegular (TOptional j))
| eqv_list i j a b : nth_error T i = Some a -> nth_error T j = Some b -> eqv T a b -> eqv T (IRegular (TList i)) (IRegular (TList j))
| eqv_tuple l1 l2 : eqvs T l1 l2 -> eqv T (IRegular (TTuple l1)) (IRegular (TTuple l2))
with eqvs (T : list ity) : list nat -> list nat -> Prop :=
| eqvs_nil : eqvs T [] []
| eqvs_cons i j a b l1 l2 : nth_error T i = Some a -> nth_error T j = Some b -> eqv T a b -> eqvs T l1 l2 -> eqvs T (i :: l1) (j :: l2).
Scheme eqv_mind := Minimality for eqv Sort Prop
with eqvs_mind := Minimality for eqvs Sort Prop.
Combined Scheme eqv_mutind from eqv_mind, eqvs_mind.
Lemma eqv_settled T a b : eqv T a b -> settledb a = true /\ settledb b = true.
Proof.
  intros [t u [->|(s & ->)] [->|(s' & ->)]|t u U1 U2| | | |]; split; try reflexivity; destruct t as [| | | |[]], u as [| | | |[]]; try discriminate; reflexivity.
Qed.
Lemma eqvs_length T l1 l2 : eqvs T l1 l2 -> length l1 = length l2.
Proof. induction 1; cbn; congruence. Qed.
Lemma eqv_card T a b : eqv T a b -> icard a = icard b.
Proof.
  intros [t u [->|(s & ->)] [->|(s' & ->)]|t u U1 U2| | | |l1 l2 H]; try reflexivity; [destruct t as [| | | |[]], u as [| | | |[]]; try discriminate; reflexivity|exact (eqvs_length H)].
Qed.
(** What [j] refers to is the same in both tables. *)
Definition held (T T' : list ity) (j : nat) : Prop := forall u, nth_error T j = Some u -> settledb u = true ->
  exists u', nth_error T' j = Some u' /\ (u' = u \/ (opaque u /\ opaque u')).
Definition keeps (T T' : list ity) : Prop := forall x t j, nth_error T x = Some t -> In j (refs t) -> held T T' j.
Lemma set_held T k u w : nth_error T k = Some w -> settledb w = false -> forall j, held T (update T k u) j.
Proof.
  intros Ek Sw j v Ev Sv. assert (L : k < length T) by (apply nth_error_Some; congruence). exists v. rewrite nth_update by exact L.
  destruct (Nat.eqb_spec j k) as [->|D]; [congruence|auto].
Qed.
Lemma eqv_opaque_l T a b : eqv T a b -> opaque a -> opaque b.
Proof. intros H [->|(s & ->)]; inversion H; subst; auto; discriminate. Qed.
Lemma eqv_opaque_r T a b : eqv T a b -> opaque b -> opaque a.
Proof. intros H [->|(s & ->)]; inversion H; subst; auto; discriminate. Qed.
Lemma eqv_moved T a b a' b' : eqv T a b -> (a' = a \/ (opaque a /\ opaque a')) -> (b' = b \/ (opaque b /\ opaque b')) -> eqv T a' b'.
Proof.
  intros H [->|[A A']] [->|[B B']]; [exact H| | |]; apply eqv_opaque; auto; [exact (eqv_opaque_r H B)|exact (eqv_opaque_l H A)].
Qed.
Lemma eqv_keeps T T' : keeps T T' -> (forall a b, eqv T a b -> (forall j, In j (refs a ++ refs b) -> held T T' j) -> eqv T' a b)
  /\ (forall l1 l2, eqvs T l1 l2 -> (forall j, In j (l1 ++ l2) -> held T T' j) -> eqvs T' l1 l2).
Proof.
  intros K.
  assert (ONE : forall i j a b, nth_error T i = Some a -> nth_error T j = Some b -> eqv T a b -> ((forall j, In j (refs a ++ refs b) -> held T T' j) -> eqv T' a b) ->
    held T T' i -> held T T' j -> exists a' b', nth_error T' i = Some a' /\ nth_error T' j = Some b' /\ eqv T' a' b').
  { intros i j a b Ea Eb Q IH Hi Hj. destruct (eqv_settled Q) as [Sa Sb]. destruct (Hi a Ea Sa) as (a' & Ea' & Da). destruct (Hj b Eb Sb) as (b' & Eb' & Db).
    exists a', b'. split; [exact Ea'|]. split; [exact Eb'|]. refine (eqv_moved (IH _) Da Db). intros k Ik. apply in_app_iff in Ik. destruct Ik as [Ik|Ik]; [exact (K i a k Ea Ik)|exact (K j b k Eb Ik)]. }
  apply eqv_mutind.
  - intros t u A B _. apply eqv_opaque; assumption.
  - intros t u A B _. apply eqv_unit; assumption.
  - intros _. apply eqv_atom.
  - intros i j a b Ea Eb Q IH H. destruct (ONE i j a b Ea Eb Q IH) as (a' & b' & X & Y & Z); [apply H; left; reflexivity|apply H; right; left; reflexivity|]. exact (eqv_optional X Y Z).
  - intros i j a b Ea Eb Q IH H. destruct (ONE i j a b Ea Eb Q IH) as (a' & b' & X & Y & Z); [apply H; left; reflexivity|apply H; right; left; reflexivity|]. exact (eqv_list X Y Z).
  - intros l1 l2 Q IH H. apply eqv_tuple, IH. exact H.
  - intros _. constructor.
  - intros i j a b l1 l2 Ea Eb Q IH Q2 IH2 H. destruct (ONE i j a b Ea Eb Q IH) as (a' & b' & X & Y & Z); [apply H; left; reflexivity|apply H; apply in_or_app; right; left; reflexivity|].
    refine (eqvs_cons X Y Z (IH2 _)). intros k Ik. apply H. apply in_app_iff in Ik. apply in_or_app. cbn. tauto.
Qed.
Lemma same_eqv T : (forall x t j, nth_error T x = Some t -> In j (refs t) -> typed T j) ->
  (forall a b, same T a b -> is_rec_ty a = false -> (forall j, In j (refs a) -> typed T j) -> eqv T a b)
  /\ (forall l1 l2, same_all T l1 l2 -> (forall j, In j l1 -> typed T j) -> eqvs T l1 l2).
Proof.
  intros K. apply same_mutind.
  - intros r Q. discriminate.
  - intros _ _. apply eqv_unit; reflexivity.
  - intros _ _. apply eqv_opaque; left; reflexivity.
  - intros _ _. apply eqv_unit; reflexivity.
  - intros _ _. apply eqv_atom.
  - intros a b _ _. apply eqv_opaque; right; eexists; reflexivity.
  - intros i j a b Ea Eb Q IH _ H. destruct (H i (or_introl eq_refl)) as (u & Eu & _ & Ru). assert (u = a) by congruence. subst u. refine (eqv_optional Ea Eb (IH Ru _)). intros k. exact (K i a k Ea).
  - intros i j a b Ea Eb Q IH _ H. destruct (H i (or_introl eq_refl)) as (u & Eu & _ & Ru). assert (u = a) by congruence. subst u. refine (eqv_list Ea Eb (IH Ru _)). intros k. exact (K i a k Ea).
  - intros l1 l2 Q IH _ H. apply eqv_tuple, IH. exact H.
  - intros _. constructor.
  - intros i j a b l1 l2 Ea Eb Q IH Q2 IH2 H. destruct (H i (or_introl eq_refl)) as (u & Eu & _ & Ru). assert (u = a) by congruence. subst u.
    refine (eqvs_cons Ea Eb (IH Ru _) (IH2 _)); [intros k; exact (K i a k Ea)|intros k Ik; apply H; right; exact Ik].
Qed.

(** The type of a sequence: the values of its operands, one after the other. *)
Definition tuple_of (T : list ity) (l : list nat) (t : ity) : Prop :=
  match flat_map (contrib T) l with
  | [] => False
  | [j] => In j l /\ exists u, nth_error T j = Some u /\ is_value_type u = true /\ sim u t
  | js => t = IRegular (TTuple js)
  end.
(** A branch that calls the rule it belongs to: its type is the type of the rule. *)
Definition rec_branch (T : list ity) (c : nat) (u : ity) : Prop := exists rl, In rl (rules G) /\ rname rl = own c /\ spos G (rexpr rl) c /\ calls G (own c) c /\
  ((exists q, u = IRec q /\ is_poly q = false) \/ exists w, nth_error T (rexpr rl) = Some w /\ settledb w = true /\ (is_unit_kind w = true \/ sim w u)).
(** The types fit the expression. *)
Definition nodeok (T : list ity) (e : expr) (t : ity) : Prop :=
  match e with
  | EStr _ | ENot _ | EAnd _ => False
  | EAny | EClass _ => t = IRegular TAtom
  | EStar c | EPlus c => t = IRegular (TList c)
  | EOpt c => t = IRegular (TOptional c)
  | EExt _ => opaque t
  | EAct _ b f => t = action_type E b f \/ (action_type E b f = IExternal /\ rust t)
  | ENT id => exists rl u, find_rule G id = Some rl /\ nth_error T (rexpr rl) = Some u /\ sim u t /\ settledb u = true /\ is_unit_kind u = false
  | ESeq l => tuple_of T l t
  | EAlt l => Forall (fun c => exists u, nth_error T c = Some u /\ (u = t \/ eqv T u t \/ opaque u \/ rec_branch T c u)) l
              /\ exists c u, In c l /\ nth_error T c = Some u /\ sim u t
  | EAsc _ _ => True
  | ESpan c => tuple_of T [last; c] t
  | ERange c => unit_at T c /\ t = IRegular (TRust (range_ty E))
  end.
Definition FitInv (T : list ity) : Prop := forall y e t, y < last -> expr_of G y = Some e -> nth_error T y = Some t ->
  settledb t = true -> is_unit_kind t = false -> good (own y) -> nodeok T e t.

Lemma icard_contrib T c t : nth_error T c = Some t -> settledb t = true -> length (contrib T c) = icard t.
Proof. intros Ec St. unfold contrib. rewrite Ec. destruct t as [| | | |[]]; try discriminate; reflexivity. Qed.
Lemma value_card t : is_value_type t = true -> icard t = 1.
Proof. destruct t as [| | | |[]]; cbn; congruence. Qed.

Lemma contrib_single path T c j : Inv G path T -> typed T c -> contrib T c = [j] -> j = c.
Proof.
  intros HI (u & Eu & Nu & Ru) H. unfold contrib in H. rewrite Eu in H. pose proof (iv_ty HI Eu Nu) as TY.
  destruct u as [| | | |[| |k|k|l|s]]; try discriminate; try (injection H as <-; reflexivity). subst l. cbn in TY. destruct TY as [L _]. cbn in L. lia.
Qed.
Lemma flat_single path T l j : Inv G path T -> Forall (typed T) l -> flat_map (contrib T) l = [j] -> In j l.
Proof.
  intros HI. induction 1 as [|c l Tc F IH]; intros H; [discriminate|]. cbn [flat_map] in H.
  destruct (contrib T c) as [|x [|y r]] eqn:EC; cbn [app] in H; [right; exact (IH H)| |discriminate].
  injection H as -> H. left. symmetry. exact (contrib_single HI Tc EC).
Qed.
Lemma reduce_tuple_of path T l t : Inv G path T -> l <> [] -> Forall (known_ty T) l -> reduce_tuple T l = WOk t -> settledb t = true -> is_unit_kind t = false ->
  tuple_of T l t.
Proof.
  intros HI NE F H St Ut. pose proof (Inv_flat HI) as FL.
  assert (D : Forall (typed T) l \/ exists i r, In i l /\ nth_error T i = Some (IRec r)).
  { clear NE H. induction F as [|i l (u & Eu & Nu) F IH]; [left; constructor|]. destruct IH as [IH|(q & r & I1 & I2)]; [|right; exists q, r; cbn; auto].
    destruct (is_rec_ty u) eqn:R; [right; destruct u; try discriminate; exists i, r; cbn; auto|left; constructor; [exists u; auto|exact IH]]. }
  destruct D as [D|(i & r & I1 & I2)].
  2: { exfalso. pose proof (iv_ty HI I2 ltac:(discriminate)) as TY.
       destruct (@reduce_tuple_rec T FL l t F H ltac:(exists i, r; split; [exact I1|]; split; [exact I2|exact (proj1 TY)])) as (q & -> & _). discriminate. }
  rewrite (reduce_tuple_spec FL NE D) in H.
  assert (FV : Forall (fun j => exists u, nth_error T j = Some u /\ is_value_type u = true) (flat_map (contrib T) l)).
  { apply Forall_flat_map. eapply Forall_impl; [|exact D]. exact (contrib_value FL). }
  unfold tuple_of. destruct (flat_map (contrib T) l) as [|j [|k js]] eqn:EF.
  - injection H as <-. destruct (forallb (invisible_at T) l); discriminate.
  - apply tget_ok in H. inversion FV as [|? ? (u & Eu & V) _]; subst. assert (u = t) by congruence. subst u.
    split; [exact (flat_single HI D EF)|]. exists t. split; [exact Eu|]. split; [exact V|left; reflexivity].
  - injection H as <-. reflexivity.
Qed.
Lemma sim_card t u : sim t u -> icard t = icard u.
Proof. intros [->|[[->|(s & ->)] [->|(s' & ->)]]]; reflexivity. Qed.
Lemma tuple_of_card T l t : Forall (typed T) l -> tuple_of T l t -> icard t = list_sum (map (cardof T) l).
Proof.
  intros D H.
  assert (LEN : length (flat_map (contrib T) l) = list_sum (map (cardof T) l)).
  { clear H. induction D as [|c l Tc D IH]; [reflexivity|]. cbn [flat_map map list_sum]. rewrite app_length, IH.
    apply typed_settled in Tc. destruct Tc as (u & Eu & Su). rewrite (icard_contrib Eu Su). unfold cardof at 2. rewrite Eu. reflexivity. }
  unfold tuple_of in H. rewrite <- LEN. destruct (flat_map (contrib T) l) as [|j [|k js]]; [contradiction| |subst t; reflexivity].
  destruct H as (_ & u & _ & V & S1). rewrite <- (sim_card S1). exact (value_card V).
Qed.

Lemma fit_local (R : nat -> ity -> Prop) path T i e t : Inv G path T -> ConstInv G E T -> expr_of G i = Some e -> i < last -> settledb t = true -> is_unit_kind t = false ->
  (forall c u, In c (visits e) -> R c u -> is_rec_ty u = false \/ exists rl, In rl (rules G) /\ rname rl = own c /\ spos G (rexpr rl) c /\ calls G (own c) c) ->
  local G E R path T e t -> nodeok T e t.
Proof.
  intros HI CI Ee Li St U NR LO.
  assert (UN : forall c t0, reduce_unary T c t0 = WOk t -> t = t0).
  { intros c t0 H. unfold reduce_unary in H. apply wbind_ok in H. destruct H as (u & Eu & H). apply WOk_inj' in H. subst t. destruct u; try discriminate; reflexivity. }
  destruct e as [lit| |cls|id|p|l|l|c|c|c|c|c|c b f|c u|c|c]; cbn [local nodeok visits] in *.
  - subst t. discriminate.
  - subst t. reflexivity.
  - subst t. reflexivity.
  - destruct LO as (rl & F & [[_ ->]|Er]); [discriminate|]. exists rl, t. repeat (split; [assumption|]). split; [left; reflexivity|auto].
  - subst t. left. reflexivity.
  - destruct LO as [F H]. refine (reduce_tuple_of HI _ F H St U). intros ->. exact (tg_seq HG Ee).
  - destruct LO as [F [->|(fuel & ts & F2 & FR & FT & H)]]; [discriminate|]. apply reduce_sum_spec in H. destruct H as [NP CT].
    assert (NROOT : forall c, In c l -> ~ is_root G c).
    { intros c Ic RT. refine (@fo_root G HF c i RT _). split; [exact Li|]. exists (EAlt l). auto. }
    assert (SET : forall u, In u ts -> is_rec_ty u = false -> settledb u = true).
    { intros u Iu Ru. rewrite Forall_forall in FT. pose proof (FT u Iu) as TY. destruct u; cbn in *; try reflexivity; try contradiction; discriminate. }
    assert (AT : forall c u, In (c, u) (combine l ts) -> In c l /\ In u ts /\ nth_error T c = Some u /\ R c u).
    { clear - F2 FR NROOT. revert FR NROOT. induction F2 as [|c v l ts H F2 IH]; intros FR NROOT d u Iu; [destruct Iu|]. inversion FR; subst. cbn [combine] in Iu. destruct Iu as [Q|Iu].
      - injection Q as <- <-. split; [left; reflexivity|]. split; [left; reflexivity|]. split; [apply H; right; apply NROOT; left; reflexivity|assumption].
      - destruct (IH ltac:(assumption) ltac:(intros x Hx; apply NROOT; right; exact Hx) d u Iu) as (A & B & C). split; [right; exact A|]. split; [right; exact B|exact C]. }
    assert (COVER : (forall c, In c l -> exists u, In (c, u) (combine l ts)) /\ (forall u, In u ts -> exists c, In (c, u) (combine l ts))).
    { clear - F2. induction F2 as [|c v l ts H F2 [IH1 IH2]]; [split; intros ? []|]. split.
      - intros d [<-|Id]; [exists v; left; reflexivity|]. destruct (IH1 d Id) as (u & Iu). exists u. right. exact Iu.
      - intros u [<-|Iu]; [exists c; left; reflexivity|]. destruct (IH2 u Iu) as (d & Id). exists d. right. exact Id. }
    assert (BR : forall u, In u ts -> exists c, In c l /\ nth_error T c = Some u).
    { intros u Iu. destruct (proj2 COVER u Iu) as (c & Ic). destruct (AT c u Ic) as (A & _ & B & _). eauto. }
    assert (IN : forall u, In u (non_rec ts) <-> In u ts /\ is_rec_ty u = false).
    { intros u. unfold non_rec. rewrite filter_In. destruct (is_rec_ty u); cbn; intuition discriminate. }
    split.
    + apply Forall_forall. intros c Ic. destruct (proj1 COVER c Ic) as (u & Icu). destruct (AT c u Icu) as (_ & Iu & Ec & Rc). exists u. split; [exact Ec|].
      destruct (is_rec_ty u) eqn:Ru.
      { do 3 right. destruct (NR c u Ic Rc) as [Q|(rl & I1 & I2 & I3 & I4)]; [congruence|]. exists rl. repeat (split; [assumption|]). left. destruct u; try discriminate. exists r. split; [reflexivity|].
        destruct (is_poly r) eqn:PR; [|reflexivity]. exfalso. apply is_poly_true in PR. destruct PR as (p & Ip). apply (NP p). apply in_flat_map. exists (IRec r). auto. }
      specialize (SET u Iu Ru).
      assert (TYR : forall path' v j, tyok G path' T v -> In j (refs v) -> typed T j).
      { intros path' v j TY Ij. destruct v as [| | | |[| |k|k|ks|s]]; cbn in Ij; try contradiction; cbn in TY.
        - destruct Ij as [<-|[]]. destruct TY as (w & Ew & Sw & _). apply typed_settled. eauto.
        - destruct Ij as [<-|[]]. destruct TY as (w & Ew & Sw & _). apply typed_settled. eauto.
        - destruct TY as [_ TY]. rewrite Forall_forall in TY. destruct (TY j Ij) as (w & Ew & Vw). apply typed_settled. exists w. split; [exact Ew|exact (value_settled Vw)]. }
      assert (ALLT : forall x v j, nth_error T x = Some v -> In j (refs v) -> typed T j).
      { intros x v j Ev Ij. refine (TYR path v j (iv_ty HI Ev _) Ij). intros ->. destruct Ij. }
      assert (SE : same T t u -> eqv T u t).
      { intros SM. apply (proj1 (same_eqv ALLT) u t (same_sym SM)); [destruct u; try reflexivity; discriminate|]. intros j. rewrite Forall_forall in FT. exact (TYR path u j (FT u Iu)). }
      assert (Iu' : In u (non_rec ts)) by (apply IN; auto).
      destruct CT as [t l0 EQ' S1|t l1 l2 _ EQ' S1 _ S2|_ _ _|r EQ' P]; try discriminate.
      * rewrite EQ' in Iu'. destruct Iu' as [->|Iu']; [left; reflexivity|]. rewrite Forall_forall in S1. right. left. exact (SE (S1 u Iu')).
      * rewrite EQ' in Iu'. apply in_app_iff in Iu'. destruct Iu' as [Iu'|[<-|Iu']]; [|left; reflexivity|].
        -- rewrite Forall_forall in S1. right. right. left. left. symmetry. exact (S1 u Iu').
        -- rewrite Forall_forall in S2. destruct (S2 u Iu') as [->|S3]; [right; right; left; left; reflexivity|right; left; exact (SE S3)].
    + destruct CT as [t l0 EQ' S1|t l1 l2 _ EQ' S1 _ S2|_ _ _|r EQ' P]; try discriminate.
      * assert (X : In t (non_rec ts)) by (rewrite EQ'; left; reflexivity). apply IN in X. destruct (BR t (proj1 X)) as (c & Ic & Ec). exists c, t. split; [exact Ic|]. split; [exact Ec|left; reflexivity].
      * assert (X : In t (non_rec ts)) by (rewrite EQ'; apply in_or_app; right; left; reflexivity). apply IN in X. destruct (BR t (proj1 X)) as (c & Ic & Ec). exists c, t. split; [exact Ic|]. split; [exact Ec|left; reflexivity].
  - destruct LO as [K H]. exact (UN c _ H).
  - destruct LO as [K H]. exact (UN c _ H).
  - destruct LO as [K H]. exact (UN c _ H).
  - subst t. discriminate.
  - subst t. discriminate.
  - left. exact LO.
  - exact I.
  - destruct LO as [K H]. assert (SP : exists s, nth_error T (length T - 1) = Some (IRegular (TRust s))) by exact (iv_span HI). destruct SP as (s & SP).
    rewrite (iv_len HI) in SP, H. refine (reduce_tuple_of HI _ _ H St U); [discriminate|]. constructor; [|constructor; [exact K|constructor]]. eexists. split; [exact SP|discriminate].
  - destruct LO as [K ->]. split; [|reflexivity]. destruct (tg_range HG Ee) as (d & Ed). destruct K as (v & Ev & Nv).
    assert (Lc : c < last). { pose proof (tg_children HG Ee) as F. rewrite Forall_forall in F. specialize (F c (or_introl eq_refl)). cbv beta in F. lia. }
    exists v. split; [exact Ev|]. destruct (CI _ _ _ _ Lc Ed eq_refl Ev) as [Q|[->|[[Q _]|[Q _]]]]; [congruence|reflexivity|exact Q|discriminate].
Qed.

(** As far as numbers of values are concerned. *)
Definition nodecard (T : list ity) (e : expr) (t : ity) : Prop :=
  match e with
  | EStr _ | ENot _ | EAnd _ => False
  | EAny | EClass _ | EStar _ | EPlus _ | EOpt _ | EExt _ | EAct _ _ _ => icard t = 1
  | ENT id => exists rl u, find_rule G id = Some rl /\ nth_error T (rexpr rl) = Some u /\ icard u = icard t /\ settledb u = true /\ is_unit_kind u = false
  | ESeq l => icard t = list_sum (map (cardof T) l)
  | EAlt l => Forall (fun c => exists u, nth_error T c = Some u /\ (icard u = icard t \/ u = IExternal \/ rust u \/
      exists rl w, In rl (rules G) /\ rname rl = own c /\ spos G (rexpr rl) c /\ calls G (own c) c /\ nth_error T (rexpr rl) = Some w /\ (is_unit_kind w = true \/ icard w = icard u))) l
  | EAsc _ _ => True
  | ESpan c => icard t = S (cardof T c)
  | ERange c => unit_at T c /\ icard t = 1
  end.
Lemma nodeok_card T e t : (exists s, nth_error T last = Some (IRegular (TRust s))) -> Forall (typed T) (visits e) -> is_unit_kind t = false ->
  nodeok T e t -> nodecard T e t.
Proof.
  intros (s & ES) F U H. destruct e as [lit| |cls|id|p|l|l|c|c|c|c|c|c b f|c u|c|c]; cbn [nodeok nodecard visits] in *; try exact H; try (subst t; reflexivity).
  - destruct H as (rl & u & A & B & S1 & R). exists rl, u. split; [exact A|]. split; [exact B|]. split; [exact (sim_card S1)|exact R].
  - destruct H as [->|(r & ->)]; reflexivity.
  - exact (tuple_of_card F H).
  - destruct H as [H _]. rewrite Forall_forall in *. intros c Ic. destruct (H c Ic) as (u & Eu & D). exists u. split; [exact Eu|].
    destruct D as [->|[D|[[D|D]|(rl & I1 & I2 & I3 & I4 & D)]]]; [left; reflexivity|left; exact (eqv_card D)|auto|auto|]. do 3 right. destruct D as [(q & -> & _)|(w & Ew & Sw & D)].
    + exfalso. destruct (F c Ic) as (v & Ev & _ & Rv). assert (v = IRec q) by congruence. subst v. discriminate.
    + exists rl, w. repeat (split; [assumption|]). destruct D as [D|D]; [auto|right; exact (sim_card D)].
  - destruct H as [->|[_ (r & ->)]]; [|reflexivity]. unfold action_type in *. destruct f as [[|r [|]]|]; try reflexivity. destruct (ret_of E r) as [[|]|]; try reflexivity; discriminate.
  - assert (X : icard t = list_sum (map (cardof T) [last; c])).
    { refine (tuple_of_card _ H). constructor; [|exact F]. eexists. split; [exact ES|split; [discriminate|reflexivity]]. }
    rewrite X. cbn [map list_sum]. unfold cardof at 1. rewrite ES. cbn. lia.
  - destruct H as [H ->]. split; [exact H|reflexivity].
Qed.

(** ---------------- how tables evolve ---------------- *)
Record step (T T' : list ity) : Prop := {
  sp_len : length T' = length T;
  sp_at : forall j t, nth_error T j = Some t -> exists t', nth_error T' j = Some t' /\
    (t' = t \/ (t = IInfer /\ t' <> IInfer) \/ (t = IExternal /\ rust t') \/ (t' = IRegular TUnit /\ exists p, kid G p j /\ unit_at T' p))
}.
Lemma step_refl T : step T T. Proof. split; [reflexivity|]. eauto. Qed.
Lemma step_unit T T' i : step T T' -> unit_at T i -> unit_at T' i.
Proof.
  intros X (u & Eu & Uu). destruct (sp_at X Eu) as (u' & Eu' & D). exists u'. split; [exact Eu'|].
  destruct D as [->|[[-> _]|[[-> _]|[-> _]]]]; try discriminate; auto.
Qed.
Lemma step_known T T' i : step T T' -> known_ty T i -> known_ty T' i.
Proof.
  intros X (u & Eu & Nu). destruct (sp_at X Eu) as (u' & Eu' & D). exists u'. split; [exact Eu'|].
  destruct D as [->|[[-> _]|[[-> (s & ->)]|[-> _]]]]; try congruence.
Qed.
Lemma step_trans T1 T2 T3 : step T1 T2 -> step T2 T3 -> step T1 T3.
Proof.
  intros X Y. split; [rewrite (sp_len Y); exact (sp_len X)|]. intros j t Et. destruct (sp_at X Et) as (u & Eu & D1). destruct (sp_at Y Eu) as (v & Ev & D2).
  exists v. split; [exact Ev|]. destruct D2 as [->|[[-> N]|[[-> (s & ->)]|[-> U]]]].
  - destruct D1 as [->|[D|[D|(-> & p & K & U)]]]; auto. do 3 right. split; [reflexivity|]. exists p. split; [exact K|exact (step_unit Y U)].
  - destruct D1 as [<-|[[_ Q]|[[_ (s & Q)]|[Q _]]]]; try congruence; auto.
  - destruct D1 as [<-|[[-> Q]|[[_ (s' & Q)]|[Q _]]]]; try congruence; [right; right; left; split; [reflexivity|exists s; reflexivity]|].
    right. left. split; [reflexivity|discriminate].
  - auto.
Qed.

(** A child of an expression with data keeps its number of values. *)
Lemma step_child T T' y c : step T T' -> kid G y c -> ~ unit_at T' y -> known_ty T c ->
  exists u u', nth_error T c = Some u /\ nth_error T' c = Some u' /\ (u' = u \/ (u = IExternal /\ rust u')).
Proof.
  intros X K NU (u & Eu & Nu). destruct (sp_at X Eu) as (u' & Eu' & D). exists u, u'. split; [exact Eu|]. split; [exact Eu'|].
  destruct D as [->|[[-> _]|[D|(-> & p & K' & U)]]]; auto; [congruence|]. exfalso. apply NU. rewrite (fo_parent HF K K'). exact U.
Qed.
Lemma rust_card u : rust u -> icard u = 1. Proof. intros (s & ->). reflexivity. Qed.

Lemma span_at path T : Inv G path T -> exists s, nth_error T last = Some (IRegular (TRust s)).
Proof. intros HI. destruct (iv_span HI) as (s & ES). rewrite (iv_len HI) in ES. eauto. Qed.
Lemma step_nodeok T T' y e t t' : keeps T T' -> (forall j, In j (refs t) -> held T T' j) -> (exists s, nth_error T last = Some (IRegular (TRust s))) -> step T T' -> y < last -> expr_of G y = Some e -> Forall (known_ty T) (visits e) ->
  nth_error T' y = Some t' -> is_unit_kind t' = false -> (t' = t \/ (t = IExternal /\ rust t')) -> nodeok T e t -> nodeok T' e t'.
Proof.
  intros KP KT SPN X Ly Ee KN Et' U' C H. assert (NU : ~ unit_at T' y) by (intros (v & Ev & Uv); congruence).
  assert (KID : forall c, In c (visits e) -> kid G y c) by (intros c Ic; split; [exact Ly|exists e; split; [exact Ee|apply visits_children, Ic]]).
  rewrite Forall_forall in KN.
  assert (CH : forall c, In c (visits e) -> exists u u', nth_error T c = Some u /\ nth_error T' c = Some u' /\ (u' = u \/ (u = IExternal /\ rust u'))).
  { intros c Ic. exact (step_child X (KID c Ic) NU (KN c Ic)). }
  assert (SIM : forall u u', (u' = u \/ (u = IExternal /\ rust u')) -> sim u t -> sim u' t').
  { intros u u' D [->|[O1 O2]].
    - destruct D as [->|[-> R]]; destruct C as [->|[Q1 Q2]]; unfold sim, opaque; try (left; reflexivity); try subst t; right; auto.
    - right. split; [destruct D as [->|[-> R]]; unfold opaque; auto|destruct C as [->|[-> R]]; unfold opaque; auto]. }
  assert (TUP : forall l, (forall c, In c l -> c = last \/ In c (visits e)) -> (In last l -> exists s, nth_error T last = Some (IRegular (TRust s))) -> tuple_of T l t -> tuple_of T' l t').
  { intros l SUB SL TU.
    assert (CH' : forall c, In c l -> exists u u', nth_error T c = Some u /\ nth_error T' c = Some u' /\ (u' = u \/ (u = IExternal /\ rust u'))).
    { intros c Ic. destruct (SUB c Ic) as [->|Ic']; [|exact (CH c Ic')]. destruct (SL Ic) as (s & ES). destruct (sp_at X ES) as (u' & Eu' & D). exists (IRegular (TRust s)), u'. split; [exact ES|]. split; [exact Eu'|].
      destruct D as [->|[[Q _]|[[Q _]|(-> & q & K & _)]]]; try discriminate; [left; reflexivity|]. exfalso. pose proof (kid_lt K). destruct K as [K _]. lia. }
    assert (FM : flat_map (contrib T') l = flat_map (contrib T) l).
    { clear - CH'. induction l as [|c l IH]; [reflexivity|]. cbn [flat_map]. rewrite IH by (intros d Id; apply CH'; right; exact Id). f_equal.
      destruct (CH' c (or_introl eq_refl)) as (u & u' & A & B & D). unfold contrib. rewrite A, B. destruct D as [->|[-> (s & ->)]]; reflexivity. }
    unfold tuple_of in *. rewrite FM. destruct (flat_map (contrib T) l) as [|j [|k js]]; [exact TU| |].
    - destruct TU as (Ij & u & Eu & Vu & Su). split; [exact Ij|]. destruct (CH' j Ij) as (w & u' & A & B & D). assert (w = u) by congruence. subst w.
      exists u'. split; [exact B|]. split; [|exact (SIM u u' D Su)]. destruct D as [->|[-> (s & ->)]]; [exact Vu|reflexivity].
    - subst t. destruct C as [->|[Q _]]; [reflexivity|discriminate]. }
  destruct e as [lit| |cls|id|p|l|l|c|c|c|c|c|c b f|c u|c|c]; cbn [nodeok visits] in *; try exact H;
    try (subst t; destruct C as [->|[Q _]]; [reflexivity|discriminate]).
  - destruct H as (rl & u & F & Eu & Su & Se & Uu). exists rl.
    destruct (sp_at X Eu) as (u' & Eu' & D). exists u'. split; [exact F|]. split; [exact Eu'|].
    destruct D as [->|[[-> _]|[[-> R]|(-> & q & K & _)]]]; [|discriminate| |].
    + split; [exact (SIM u u (or_introl eq_refl) Su)|auto].
    + split; [exact (SIM _ u' (or_intror (conj eq_refl R)) Su)|destruct R as (s & ->); auto].
    + exfalso. refine (fo_root HF _ K). exists rl. split; [exact (proj2 (find_rule_name F))|reflexivity].
  - unfold opaque in *. destruct C as [->|[_ R]]; auto.
  - apply TUP; auto.
  - destruct H as [H (c & u & Ic & Eu & Su)]. split.
    + rewrite Forall_forall in *. intros d Id. destruct (CH d Id) as (v & v' & A & B & D). destruct (H d Id) as (w & Ew & O). assert (w = v) by congruence. subst w.
      exists v'. split; [exact B|].
      assert (DV : v' = v \/ (opaque v /\ opaque v')) by (destruct D as [->|[-> R]]; unfold opaque; auto).
      assert (DT : t' = t \/ (opaque t /\ opaque t')) by (destruct C as [->|[-> R]]; unfold opaque; auto).
      destruct O as [->|[O|[O|O]]].
      * destruct DV as [->|[DV DV']]; [|auto]. destruct DT as [->|[DT DT']]; auto.
      * right. left. refine (eqv_moved _ DV DT). apply (proj1 (eqv_keeps KP) v t O). intros j Ij. apply in_app_iff in Ij. destruct Ij as [Ij|Ij]; [exact (KP d v j Ew Ij)|exact (KT j Ij)].
      * right. right. left. destruct DV as [->|[DV DV']]; assumption.
      * do 3 right. destruct O as (rl & I1 & I2 & I3 & I4 & O). exists rl. repeat (split; [assumption|]). destruct O as [(q & -> & Pq)|(x & Ex & Sx & O)].
        { left. exists q. split; [|exact Pq]. destruct D as [->|[Q _]]; [reflexivity|discriminate]. }
        right. destruct (sp_at X Ex) as (x' & Ex' & DX). exists x'. split; [exact Ex'|].
        assert (DX' : x' = x \/ (opaque x /\ opaque x')).
        { destruct DX as [->|[[-> _]|[[-> R]|(_ & q & K & _)]]]; [auto|discriminate|right; unfold opaque; auto|].
          exfalso. refine (fo_root HF _ K). exists rl. auto. }
        split; [destruct DX' as [->|[_ [->|(s & ->)]]]; auto|].
        destruct O as [O|O].
        -- left. destruct DX' as [->|[[->|(s & ->)] _]]; [exact O|discriminate|discriminate].
        -- right. destruct DX' as [->|[A1 A2]], DV as [->|[B1 B2]]; unfold sim in *; auto.
           ++ right. split; [|exact B2]. destruct O as [->|[O1 O2]]; assumption.
           ++ right. split; [exact A2|]. destruct O as [<-|[O1 O2]]; assumption.
    + destruct (CH c Ic) as (w & u' & A & B & D). assert (w = u) by congruence. subst w. exists c, u'. split; [exact Ic|]. split; [exact B|exact (SIM u u' D Su)].
  - destruct C as [->|[-> R]]; [exact H|]. destruct H as [H|[_ (s & Q)]]; [right; auto|discriminate].
  - apply TUP; auto. intros d [<-|[<-|[]]]; [left; reflexivity|right; left; reflexivity].
  - destruct H as [Uc ->]. split; [exact (step_unit X Uc)|]. destruct C as [->|[Q _]]; [reflexivity|discriminate].
Qed.

(** ---------------- the invariant ---------------- *)
Record DInv (T : list ity) : Prop := {
  di_inv : Inv G [] T;
  di_shape : Shape G E T;
  di_rec : no_rec T;
  di_roots : forall rl, In rl (rules G) -> known_ty T (rexpr rl);
  di_fit : FitInv T
}.

(** One more bottom-up pass. *)
Lemma sexpr_rec fuel : forall i st t st', here G own [] (tys st) i -> Inv G [] (tys st) -> sexpr G E fuel [] i st = WOk (t, st') ->
  ConstInv G E (tys st) /\ no_rec (tys st) /\ FitInv (tys st) /\ KidsInv G (tys st) -> ConstInv G E (tys st') /\ no_rec (tys st') /\ FitInv (tys st') /\ KidsInv G (tys st').
Proof.
  intros i st t st' HH HI H HP.
  refine (@sexpr_pres G E HG own HO (fun _ T => ConstInv G E T /\ no_rec T /\ FitInv T /\ KidsInv G T) (fun path _ => path = []) (fun _ _ u => is_rec_ty u = false) _ _ _ _ _ _ fuel [] i st t st' _ HH HI eq_refl H HP); auto.
  - intros path T c u (_ & NR & _) _ Ec _. exact (NR c u Ec).
  - intros path T k id rl _ F _ HH' Er ->. exfalso. destruct (HH' rl (proj2 (find_rule_name F))) as (v & Ev & Nv). congruence.
  - intros path k e T u I1 HK -> Ee Ek TY LO (CI & NR & FI & KI). assert (L : k < length T) by (apply nth_error_Some; congruence).
    assert (NI : u <> IInfer) by (intros ->; exact TY).
    assert (SH : step T (update T k u)).
    { split; [apply length_update, L|]. intros j v Ev. rewrite nth_update by exact L. destruct (Nat.eqb_spec j k) as [->|D]; [|eauto].
      exists u. split; [reflexivity|]. right. left. split; [congruence|exact NI]. }
    assert (CI' : ConstInv G E (update T k u)) by exact (set_const Ek Ee LO CI).
    split; [exact CI'|]. split; [|split; [|exact (set_kids Ek NI Ee LO KI)]].
    + intros j v. rewrite nth_update by exact L. destruct (Nat.eqb_spec j k) as [->|D]; intros Ev; [|exact (NR j v Ev)]. injection Ev as <-.
      assert (CHR : forall c, known_ty T c -> typed T c) by (intros c (w & Ew & Nw); exists w; split; [exact Ew|split; [exact Nw|exact (NR c w Ew)]]).
      assert (UN : forall c t0, is_rec_ty t0 = false -> reduce_unary T c t0 = WOk u -> is_rec_ty u = false).
      { intros c t0 C0 K. unfold reduce_unary in K. apply wbind_ok in K. destruct K as (w & Ew & K). apply WOk_inj' in K. subst u. apply tget_ok in Ew.
        pose proof (NR _ _ Ew) as Rw. destruct w; try discriminate; auto. }
      assert (TU : forall l, l <> [] -> Forall (known_ty T) l -> reduce_tuple T l = WOk u -> is_rec_ty u = false).
      { intros l NE F K. rewrite (reduce_tuple_spec (Inv_flat I1) NE) in K by (eapply Forall_impl; [|exact F]; exact CHR).
        destruct (flat_map (contrib T) l) as [|x [|y ys]].
        - injection K as <-. destruct (forallb _ l); reflexivity.
        - apply tget_ok in K. exact (NR _ _ K).
        - injection K as <-. reflexivity. }
      destruct e as [lit| |cls|id|p|l|l|c|c|c|c|c|c b f|c w|c|c]; cbn [local] in LO; try (subst u; reflexivity).
      * destruct LO as (rl & F & [[[] _]|Er]). exact (NR _ _ Er).
      * destruct LO as [F K]. refine (TU l _ F K). intros ->. exact (tg_seq HG Ee).
      * destruct LO as [F [->|(fuel' & ts & F2 & FR & FT & K)]]; [reflexivity|]. apply reduce_sum_spec in K. destruct K as [_ CT].
        assert (ALL : forall w, In w ts -> is_rec_ty w = false).
        { clear - FR. induction FR; intros w []; subst; auto. }
        destruct CT as [w l0 EQ _|w l1 l2 _ EQ _ _ _|_ _ _|r EQ P]; try reflexivity.
        -- apply ALL. assert (X : In w (non_rec ts)) by (rewrite EQ; left; reflexivity). apply filter_In in X. tauto.
        -- apply ALL. assert (X : In w (non_rec ts)) by (rewrite EQ; apply in_or_app; right; left; reflexivity). apply filter_In in X. tauto.
        -- exfalso. destruct ts as [|w ts]; [inversion F2; subst; exact (tg_alt HG Ee)|]. unfold non_rec in EQ. cbn [filter] in EQ. rewrite (ALL w (or_introl eq_refl)) in EQ. discriminate.
      * destruct LO as [_ K]. refine (UN c _ _ K); reflexivity.
      * destruct LO as [_ K]. refine (UN c _ _ K); reflexivity.
      * destruct LO as [_ K]. refine (UN c _ _ K); reflexivity.
      * subst u. unfold action_type. destruct f as [[|s [|]]|]; try reflexivity. destruct (ret_of E s) as [[|]|]; reflexivity.
      * subst u. destruct (tg_asc HG Ee) as [->|[->|(s & ->)]]; reflexivity.
      * destruct LO as [K1 K]. refine (TU _ _ _ K); [discriminate|]. constructor; [|constructor; [exact K1|constructor]].
        destruct (iv_span I1) as (s & ES). eexists. split; [exact ES|discriminate].
      * destruct LO as [_ ->]. reflexivity.
    + pose proof (last_unset I1 Ek) as LK. intros y e' v Ly Ey. rewrite nth_update by exact L. destruct (Nat.eqb_spec y k) as [->|D]; intros Ev Sv Uv Gy.
      * injection Ev as <-. assert (e = e') by congruence. subst e'.
        refine (@step_nodeok T (update T k u) k e u u (fun _ _ j _ _ => @set_held _ _ _ _ Ek eq_refl j) (fun j _ => @set_held _ _ _ _ Ek eq_refl j) (span_at I1) SH LK Ee (local_known LO) _ Uv (or_introl eq_refl) _).
        { rewrite nth_update, Nat.eqb_refl by exact L. reflexivity. }
        refine (fit_local I1 CI Ee LK Sv Uv _ LO). intros c w _ Hw. left. exact Hw.
      * refine (@step_nodeok T (update T k u) y e' v v (fun _ _ j _ _ => @set_held _ _ _ _ Ek eq_refl j) (fun j _ => @set_held _ _ _ _ Ek eq_refl j) (span_at I1) SH Ly Ey _ _ Uv (or_introl eq_refl) (FI y e' v Ly Ey Ev Sv Uv Gy)).
        -- refine (KI y e' v Ly Ey Ev _ Uv). intros ->. discriminate.
        -- rewrite nth_update by exact L. destruct (Nat.eqb_spec y k); [congruence|exact Ev].
  - intros path id rl T t1 t2 _ _ _ _ _ Q. discriminate.
  - constructor.
Qed.

Lemma infer_step T T' : ext T T' -> no_rec T -> step T T'.
Proof.
  intros X NR. split; [exact (ex_len X)|]. intros j t Et. destruct (settledb t) eqn:St; [exists t; split; [exact (ex_settled X Et St)|auto]|].
  assert (L : j < length T') by (rewrite (ex_len X); apply nth_error_Some; congruence). destruct (nth_error T' j) as [t'|] eqn:Et'; [|apply nth_error_None in Et'; lia].
  exists t'. split; [reflexivity|]. pose proof (NR j t Et) as Rt. destruct t; try discriminate. destruct t'; auto; right; left; split; congruence.
Qed.
Lemma sexpr_D fuel i st t st' : DInv (tys st) -> sexpr G E fuel [] i st = WOk (t, st') ->
  DInv (tys st') /\ step (tys st) (tys st') /\ nth_error (tys st') i = Some t /\ t <> IInfer
  /\ (forall j, nth_error (tys st') j = nth_error (tys st) j \/ reaches (exprs G) i j).
Proof.
  intros [I1 S1 N1 R1 F1] H. destruct (@sexpr_ok G E HG own HO fuel [] i st t st' ltac:(constructor) R1 I1 H) as (I2 & X & Et & Nt & _ & FR).
  destruct S1 as (RF & CI & KI).
  destruct (sexpr_rec R1 I1 H (conj CI (conj N1 (conj F1 KI)))) as (CI' & N2 & F2 & KI').
  destruct (@sexpr_shape G E HG own HO fuel [] i st t st' ltac:(constructor) R1 I1 H (conj RF (conj CI KI))) as (RF' & _).
  split; [|split; [exact (infer_step X N1)|split; [exact Et|split; [exact Nt|]]]].
  - split; [exact I2|split; [exact RF'|split; [exact CI'|exact KI']]|exact N2| |exact F2]. intros rl Irl. exact (ex_known X (R1 rl Irl)).
  - intros j. destruct (FR j) as [Q|[Q|[Q _]]]; [auto|auto|congruence].
Qed.

(** What may be done to a stored type without spoiling those that refer to it. *)
Lemma tyok_upd T T' t : is_rec_ty t = false -> tyok G [] T t ->
  (forall j u, In j (refs t) -> nth_error T j = Some u -> exists u', nth_error T' j = Some u' /\ (u' = u \/ (u = IExternal /\ rust u'))) -> tyok G [] T' t.
Proof.
  intros NR TY H. destruct t as [|r| | |[| |j|j|l|s]]; cbn [tyok refs] in *; try exact TY; try discriminate.
  - destruct TY as (u & Eu & Su & Nu). destruct (H j u (or_introl eq_refl) Eu) as (u' & Eu' & D). exists u'. split; [exact Eu'|].
    destruct D as [->|[-> (s & ->)]]; [auto|split; [reflexivity|discriminate]].
  - destruct TY as (u & Eu & Su & Nu). destruct (H j u (or_introl eq_refl) Eu) as (u' & Eu' & D). exists u'. split; [exact Eu'|].
    destruct D as [->|[-> (s & ->)]]; [auto|split; [reflexivity|discriminate]].
  - destruct TY as [L F]. split; [exact L|]. rewrite Forall_forall in *. intros j Ij. destruct (F j Ij) as (u & Eu & Vu). destruct (H j u Ij Eu) as (u' & Eu' & D). exists u'.
    split; [exact Eu'|]. destruct D as [->|[-> (s & ->)]]; [exact Vu|reflexivity].
Qed.

Lemma via_parent T x j : via G T x j -> exists p, stable T p /\ kid G p j.
Proof. induction 1; eauto. Qed.
Lemma via_set_unit T i p x j : kid G p i -> unit_at T p -> x <> i -> via G T x j -> via G (update T i (IRegular TUnit)) x j.
Proof.
  intros K (u & Eu & Uu) N V.
  assert (ST : forall y, y <> i -> stable T y -> stable (update T i (IRegular TUnit)) y).
  { intros y D (v & Ev & Sv & Nv). exists v. split; [|auto]. destruct (le_lt_dec (length T) i) as [LE|LT].
    - assert (y < length T) by (apply nth_error_Some; congruence). unfold update. rewrite nth_error_app1; rewrite firstn_all2 by lia; [exact Ev|lia].
    - rewrite nth_update by exact LT. destruct (Nat.eqb_spec y i); [congruence|exact Ev]. }
  induction V as [x j S1 Kx|x y j S1 Kx V IH]; [apply via_kid; auto|]. refine (via_step (ST x N S1) Kx (IH _)).
  intros ->. rewrite (fo_parent HF Kx K) in S1. destruct S1 as (v & Ev & _ & Nv). congruence.
Qed.

Lemma set_unit_D T i p : DInv T -> kid G p i -> unit_at T p -> DInv (update T i (IRegular TUnit)) /\ step T (update T i (IRegular TUnit)).
Proof.
  intros [I1 (RF & CI & KI) N1 R1 F1] K UP. set (T' := update T i (IRegular TUnit)).
  assert (Li : i < last). { pose proof (kid_lt K). destruct K as [? _]. lia. }
  assert (L : i < length T) by (rewrite (iv_len I1); lia).
  assert (AT : forall j, nth_error T' j = if j =? i then Some (IRegular TUnit) else nth_error T j) by (intros j; apply nth_update, L).
  assert (UP' : unit_at T' p). { destruct UP as (u & Eu & Uu). unfold unit_at. rewrite AT. destruct (p =? i); eauto. }
  assert (SP : step T T').
  { split; [apply length_update, L|]. intros j t Et. rewrite AT. destruct (Nat.eqb_spec j i) as [->|D]; [|eauto]. eexists. split; [reflexivity|]. do 3 right. eauto. }
  assert (NOREF : forall x t, nth_error T x = Some t -> ~ In i (refs t)).
  { intros x t Et Ii. destruct (RF x t i Et Ii) as [Q|(x' & _ & V)]; [lia|]. apply via_parent in V. destruct V as (q & (v & Ev & _ & Nv) & Kq).
    rewrite (fo_parent HF Kq K) in Ev. destruct UP as (u & Eu & Uu). congruence. }
  assert (HE : keeps T T').
  { intros x t j Et Ij v Ev Sv. exists v. rewrite AT. destruct (Nat.eqb_spec j i) as [->|D]; [destruct (NOREF x t Et Ij)|auto]. }
  assert (NRI : forall rl, In rl (rules G) -> rexpr rl <> i). { intros rl Irl Q. refine (fo_root HF _ K). exists rl. auto. }
  split; [|exact SP]. split.
  - destruct I1 as [L1 SPAN H1]. split; [rewrite (sp_len SP); exact L1| |].
    + destruct SPAN as (s & ES). exists s. rewrite (sp_len SP), AT. destruct (Nat.eqb_spec (length T - 1) i) as [Q|Q]; [rewrite L1 in Q; lia|exact ES].
    + intros j t. rewrite AT. destruct (Nat.eqb_spec j i) as [->|D]; intros Et Nt; [injection Et as <-; exact I|].
      refine (tyok_upd (N1 j t Et) (H1 j t Et Nt) _). intros k u Ik Ek. exists u. rewrite AT. destruct (Nat.eqb_spec k i) as [->|D']; [destruct (NOREF j t Et Ik)|auto].
  - split; [|split].
    + intros x t j. rewrite AT. destruct (Nat.eqb_spec x i) as [->|D]; intros Et Ij; [injection Et as <-; destruct Ij|].
      destruct (RF x t j Et Ij) as [->|(x' & DD & V)]; [left; reflexivity|]. right. exists x'. split; [exact DD|]. refine (via_set_unit K UP _ V).
      destruct DD as [->|(rl & Irl & <-)]; [exact D|exact (NRI rl Irl)].
    + intros k e u t Lk Ek C. rewrite AT. destruct (Nat.eqb_spec k i) as [->|D]; intros Et; [injection Et as <-; right; right; left; split; [reflexivity|eauto]|].
      destruct (CI k e u t Lk Ek C Et) as [Q|[Q|[(Q & q & Kq & Uq)|Q]]]; auto. right. right. left. split; [exact Q|]. exists q. split; [exact Kq|exact (step_unit SP Uq)].
    + intros k e t Lk Ek. rewrite AT. destruct (Nat.eqb_spec k i) as [->|D]; intros Et Nt U; [injection Et as <-; discriminate|].
      eapply Forall_impl; [|exact (KI k e t Lk Ek Et Nt U)]. intros c. apply (step_known SP).
  - intros j t. rewrite AT. destruct (j =? i); intros Et; [injection Et as <-; reflexivity|exact (N1 j t Et)].
  - intros rl Irl. exact (step_known SP (R1 rl Irl)).
  - intros y e t Ly Ey. rewrite AT. destruct (Nat.eqb_spec y i) as [->|D]; intros Et St Ut Gy; [injection Et as <-; discriminate|].
    refine (@step_nodeok T T' y e t t HE (fun j => HE y t j Et) (span_at I1) SP Ly Ey _ _ Ut (or_introl eq_refl) (F1 y e t Ly Ey Et St Ut Gy)).
    + refine (KI y e t Ly Ey Et _ Ut). intros ->. discriminate.
    + rewrite AT. destruct (Nat.eqb_spec y i); [congruence|exact Et].
Qed.

Lemma set_rust_D T i s : DInv T -> ascribed G s i -> i < last -> nth_error T i = Some IExternal -> DInv (update T i (IRegular (TRust s))) /\ step T (update T i (IRegular (TRust s))).
Proof.
  intros [I1 (RF & CI & KI) N1 R1 F1] AB Li Ei. set (T' := update T i (IRegular (TRust s))).
  assert (L : i < length T) by (apply nth_error_Some; congruence).
  assert (AT : forall j, nth_error T' j = if j =? i then Some (IRegular (TRust s)) else nth_error T j) by (intros j; apply nth_update, L).
  assert (SP : step T T').
  { split; [apply length_update, L|]. intros j t Et. rewrite AT. destruct (Nat.eqb_spec j i) as [->|D]; [|eauto]. eexists. split; [reflexivity|]. right. right. left.
    split; [congruence|exists s; reflexivity]. }
  assert (ST : forall y, stable T y -> stable T' y).
  { intros y (v & Ev & Sv & Nv). unfold stable. rewrite AT. destruct (y =? i); eauto. }
  assert (HE : forall j, held T T' j).
  { intros j v Ev Sv. rewrite AT. destruct (Nat.eqb_spec j i) as [->|D]; [|eauto]. eexists. split; [reflexivity|]. right. assert (v = IExternal) by congruence. subst v.
    split; [left; reflexivity|right; exists s; reflexivity]. }
  split; [|exact SP]. split.
  - destruct I1 as [L1 SPAN H1]. split; [rewrite (sp_len SP); exact L1| |].
    + destruct SPAN as (s' & ES). rewrite (sp_len SP), AT. destruct (Nat.eqb_spec (length T - 1) i) as [Q|Q]; [rewrite L1 in Q; lia|eauto].
    + intros j t. rewrite AT. destruct (Nat.eqb_spec j i) as [->|D]; intros Et Nt; [injection Et as <-; exact I|].
      refine (tyok_upd (N1 j t Et) (H1 j t Et Nt) _). intros k u Ik Ek. rewrite AT. destruct (Nat.eqb_spec k i) as [->|D']; [|eauto].
      eexists. split; [reflexivity|]. right. split; [congruence|exists s; reflexivity].
  - split; [|split].
    + intros x t j. rewrite AT. destruct (Nat.eqb_spec x i) as [->|D]; intros Et Ij; [injection Et as <-; destruct Ij|]. exact (justified_mono ST (RF x t j Et Ij)).
    + intros k e u t Lk Ek C. rewrite AT. destruct (Nat.eqb_spec k i) as [->|D]; intros Et; [|destruct (CI k e u t Lk Ek C Et) as [Q|[Q|[(Q & q & Kq & Uq)|Q]]]; auto;
        right; right; left; split; [exact Q|]; exists q; split; [exact Kq|exact (step_unit SP Uq)]].
      injection Et as <-. destruct (CI i e u _ Li Ek C Ei) as [Q|[Q|[[Q _]|(_ & s' & Q & _)]]]; try discriminate. do 3 right. split; [congruence|exists s; split; [reflexivity|exact AB]].
    + intros k e t Lk Ek. rewrite AT. destruct (Nat.eqb_spec k i) as [->|D]; intros Et Nt U; (eapply Forall_impl; [intros c; apply (step_known SP)|]).
      * exact (KI i e _ Lk Ek Ei ltac:(discriminate) eq_refl).
      * exact (KI k e t Lk Ek Et Nt U).
  - intros j t. rewrite AT. destruct (j =? i); intros Et; [injection Et as <-; reflexivity|exact (N1 j t Et)].
  - intros rl Irl. exact (step_known SP (R1 rl Irl)).
  - intros y e t Ly Ey. rewrite AT. destruct (Nat.eqb_spec y i) as [->|D]; intros Et St Ut Gy.
    + injection Et as <-. refine (@step_nodeok T T' i e IExternal _ (fun _ _ j _ _ => HE j) (fun j _ => HE j) (span_at I1) SP Ly Ey _ _ Ut (or_intror (conj eq_refl (ex_intro _ s eq_refl))) (F1 i e _ Ly Ey Ei eq_refl eq_refl Gy)).
      * exact (KI i e _ Ly Ey Ei ltac:(discriminate) eq_refl).
      * rewrite AT, Nat.eqb_refl. reflexivity.
    + refine (@step_nodeok T T' y e t t (fun _ _ j _ _ => HE j) (fun j _ => HE j) (span_at I1) SP Ly Ey _ _ Ut (or_introl eq_refl) (F1 y e t Ly Ey Et St Ut Gy)).
      * refine (KI y e t Ly Ey Et _ Ut). intros ->. discriminate.
      * rewrite AT. destruct (Nat.eqb_spec y i); [congruence|exact Et].
Qed.

(** ---------------- the visitor ---------------- *)
(** An expression that has been visited. *)
Record done (T : list ity) (y : nat) : Prop := {
  dn_known : known_ty T y;
  dn_unit : unit_at T y -> forall c, kid G y c -> unit_at T c;
  dn_asc : forall c u, expr_of G y = Some (EAsc c u) -> ~ unit_at T y -> exists w, nth_error T c = Some w /\ rust w
}.
Definition dframe (T T' : list ity) (i : nat) : Prop := forall j, nth_error T' j = nth_error T j \/ reaches (exprs G) i j.
(** A visit of [i] leaves what was done elsewhere. *)
Lemma done_frame T T' i y : i < last -> dframe T T' i -> (forall z, reaches (exprs G) i z -> done T' z) -> y < last -> ~ kid G y i -> done T y -> done T' y.
Proof.
  intros Li FR D Ly NK H. destruct (FR y) as [Q|Q]; [|exact (D y Q)].
  assert (KIDS : (forall c, kid G y c -> nth_error T' c = nth_error T c) \/ done T' y).
  { destruct (expr_of G y) as [e|] eqn:Ey.
    2: { left. intros c (_ & e & Ee & _). congruence. }
    assert (AUX : forall l, incl l (children e) -> (forall c, In c l -> nth_error T' c = nth_error T c) \/ done T' y).
    { induction l as [|c l IH]; intros SUB; [left; intros c []|]. destruct (IH ltac:(intros x Hx; apply SUB; right; exact Hx)) as [A|A]; [|auto].
      destruct (FR c) as [B|B]; [left; intros x [<-|Hx]; auto|]. right. apply D.
      assert (K : kid G y c) by (split; [exact Ly|exists e; split; [exact Ey|apply SUB; left; reflexivity]]).
      refine (reaches_kid Li B K _). intros ->. exact (NK K). }
    destruct (AUX _ (incl_refl _)) as [A|A]; [|auto]. left. intros c (_ & e' & Ee' & Ic). apply A. congruence. }
  destruct KIDS as [KIDS|X]; [|exact X]. destruct H as [(v & Ev & Nv) U A]. split.
  - exists v. rewrite Q. auto.
  - intros (w & Ew & Uw) c K. rewrite Q in Ew. destruct (U ltac:(exists w; auto) c K) as (x & Ex & Ux). exists x. rewrite (KIDS c K). auto.
  - intros c u Ey NU. destruct (A c u Ey) as (w & Ew & Rw); [intros (x & Ex & Ux); apply NU; exists x; rewrite Q; auto|].
    exists w. split; [|exact Rw]. rewrite KIDS; [exact Ew|]. split; [exact Ly|]. exists (EAsc c u). split; [exact Ey|left; reflexivity].
Qed.

Definition asc_ok (uu : bool) (asc : option ity) (i : nat) : Prop := uu = false -> forall aty, asc = Some aty -> exists s, aty = IRegular (TRust s) /\ ascribed G s i.
Lemma asc_down uu asc i c : asc_ok uu asc i -> kid G i c -> asc_ok uu asc c.
Proof.
  intros A K Q aty Ea. destruct (A Q aty Ea) as (s & -> & a & d & Ed & R). exists s. split; [reflexivity|]. exists a, d. split; [exact Ed|exact (reaches_more R K)].
Qed.

(** Any property of the table kept by the three ways the visitor changes it. *)
Section Kept.
Variable Kept : list ity -> Prop.
Hypothesis K_sexpr : forall fuel i st t st', DInv (tys st) -> Kept (tys st) -> sexpr G E fuel [] i st = WOk (t, st') -> terr st' = false -> Kept (tys st').
Hypothesis K_unit : forall T i p, DInv T -> Kept T -> kid G p i -> unit_at T p -> Kept (update T i (IRegular TUnit)).
Hypothesis K_rust : forall T i s, DInv T -> Kept T -> ascribed G s i -> i < last -> nth_error T i = Some IExternal -> (exists p, kid G p i /\ known_ty T p) -> Kept (update T i (IRegular (TRust s))).

Record pre (uu : bool) (asc : option ity) (i : nat) (T : list ity) : Prop := {
  pr_inv : DInv T;
  pr_kept : Kept T;
  pr_parent : asc <> None -> exists p, kid G p i /\ known_ty T p;
  pr_lt : i < last;
  pr_uu : uu = true -> exists p, kid G p i /\ unit_at T p;
  pr_known : uu = false -> known_ty T i;
  pr_asc : asc_ok uu asc i
}.
Record post (uu : bool) (asc : option ity) (i : nat) (T T' : list ity) : Prop := {
  po_inv : DInv T';
  po_kept : Kept T';
  po_step : step T T';
  po_frame : dframe T T' i;
  po_done : forall y, reaches (exprs G) i y -> done T' y;
  po_unit : uu = true -> unit_at T' i;
  po_rust : uu = false -> forall aty, asc = Some aty -> exists w, nth_error T' i = Some w /\ rust w
}.
Definition vd_ok (vd : bool -> option ity -> nat -> tst -> wres tst) : Prop := forall uu asc i st st',
  pre uu asc i (tys st) -> vd uu asc i st = WOk st' -> terr st' = false -> post uu asc i (tys st) (tys st').

Lemma not_err st st' : keeps_err st st' -> terr st' = false -> terr st = false.
Proof. unfold keeps_err. destruct (terr st), (terr st'); auto. intros H _. discriminate (H eq_refl). Qed.

(** Several visits below the same expression. *)
Lemma dexprs_ok (i : nat) (e : expr) (vd : nat -> tst -> wres tst) (uu : bool) :
  expr_of G i = Some e -> i < last ->
  (forall c st st', vd c st = WOk st' -> keeps_err st st') ->
  (forall c st st', In c (children e) -> DInv (tys st) -> Kept (tys st) -> known_ty (tys st) i -> (uu = true -> unit_at (tys st) i) -> (uu = false -> known_ty (tys st) c) -> vd c st = WOk st' -> terr st' = false ->
     exists asc, post uu asc c (tys st) (tys st')) ->
  forall l st st', incl l (children e) -> DInv (tys st) -> Kept (tys st) -> known_ty (tys st) i -> (uu = true -> unit_at (tys st) i) -> (uu = false -> Forall (known_ty (tys st)) l) ->
  dexprs vd l st = WOk st' -> terr st' = false ->
  (DInv (tys st') /\ Kept (tys st')) /\ step (tys st) (tys st')
  /\ (forall j, nth_error (tys st') j = nth_error (tys st) j \/ exists c, In c l /\ reaches (exprs G) c j)
  /\ (forall c y, In c l -> reaches (exprs G) c y -> done (tys st') y)
  /\ (uu = true -> forall c, In c l -> unit_at (tys st') c).
Proof.
  intros Ee Li KE V. assert (KID : forall c, In c (children e) -> kid G i c) by (intros c Ic; split; [exact Li|exists e; auto]).
  induction l as [|c l IH]; intros st st' SUB HD HK KI UA KN H NE; cbn [dexprs] in H.
  - injection H as <-. split; [auto|]. split; [apply step_refl|]. split; [auto|]. split; intros; contradiction.
  - apply wbind_ok in H. destruct H as (s & Hs & H). assert (NEs : terr s = false) by exact (not_err (dexprs_err KE H) NE).
    assert (Ic : In c (children e)) by (apply SUB; left; reflexivity).
    destruct (V c st s Ic HD HK KI UA ltac:(intros Q; specialize (KN Q); inversion KN; assumption) Hs NEs) as (asc & [D1 K1 S1 F1 DN1 U1 _]).
    assert (SUB' : incl l (children e)) by (intros x Hx; apply SUB; right; exact Hx).
    destruct (IH s st' SUB' D1 K1 (step_known S1 KI) (fun Q => step_unit S1 (UA Q)) ltac:(intros Q; specialize (KN Q); inversion KN; subst; eapply Forall_impl; [intros x; apply (step_known S1)|assumption]) H NE)
      as (D2 & S2 & F2 & DN2 & U2).
    assert (LT : forall x, In x (children e) -> x < i) by (intros x Hx; exact (kid_lt (KID x Hx))).
    split; [exact D2|]. split; [exact (step_trans S1 S2)|]. split; [|split].
    + intros j. destruct (F2 j) as [Q|(x & Ix & Q)]; [|right; exists x; split; [right; exact Ix|exact Q]]. rewrite Q.
      destruct (F1 j) as [Q1|Q1]; [auto|right; exists c; split; [left; reflexivity|exact Q1]].
    + intros x y [<-|Ix] R; [|exact (DN2 x y Ix R)]. pose proof (DN1 y R) as DY. assert (Ly : y < last) by (refine (reaches_last _ R); specialize (LT c Ic); lia).
      destruct (F2 y) as [Q|(x & Ix & Q)]; [|exact (DN2 x y Ix Q)].
      assert (KIDS : (forall z, kid G y z -> nth_error (tys st') z = nth_error (tys s) z) \/ done (tys st') y).
      { destruct (expr_of G y) as [ey|] eqn:Ey; [|left; intros z (_ & e' & Ee' & _); congruence].
        assert (AUX : forall zs, incl zs (children ey) -> (forall z, In z zs -> nth_error (tys st') z = nth_error (tys s) z) \/ done (tys st') y).
        { induction zs as [|z zs IZ]; intros SZ; [left; intros z []|]. destruct (IZ ltac:(intros w Hw; apply SZ; right; exact Hw)) as [A|A]; [|auto].
          destruct (F2 z) as [B|(w & Iw & B)]; [left; intros v [<-|Hv]; auto|]. right. apply (DN2 w y Iw).
          assert (K : kid G y z) by (split; [exact Ly|exists ey; split; [exact Ey|apply SZ; left; reflexivity]]).
          refine (reaches_kid _ B K _); [specialize (LT w (SUB' w Iw)); lia|]. intros ->.
          pose proof (fo_parent HF K (KID w (SUB' w Iw))) as EQ. subst y. pose proof (reaches_le HG R). specialize (LT c Ic). lia. }
        destruct (AUX _ (incl_refl _)) as [A|A]; [|auto]. left. intros z (_ & e' & Ee' & Iz). apply A. congruence. }
      destruct KIDS as [KIDS|X]; [|exact X]. destruct DY as [(v & Ev & Nv) U A]. split.
      * exists v. rewrite Q. auto.
      * intros (w & Ew & Uw) z K. rewrite Q in Ew. destruct (U ltac:(exists w; auto) z K) as (q & Eq & Uq). exists q. rewrite (KIDS z K). auto.
      * intros z u Ey NU. destruct (A z u Ey) as (w & Ew & Rw); [intros (q & Eq & Uq); apply NU; exists q; rewrite Q; auto|].
        exists w. split; [|exact Rw]. rewrite KIDS; [exact Ew|]. split; [exact Ly|]. exists (EAsc z u). split; [exact Ey|left; reflexivity].
    + intros Q x [<-|Ix]; [exact (step_unit S2 (U1 Q))|exact (U2 Q x Ix)].
Qed.

(** Below an expression. *)
Record below (uu : bool) (i : nat) (e : expr) (T T' : list ity) : Prop := {
  be_inv : DInv T';
  be_kept : Kept T';
  be_step : step T T';
  be_frame : forall j, nth_error T' j = nth_error T j \/ exists c, In c (children e) /\ reaches (exprs G) c j;
  be_done : forall c y, In c (children e) -> reaches (exprs G) c y -> done T' y;
  be_unit : uu = true -> forall c, In c (children e) -> unit_at T' c;
  be_asc : uu = false -> forall c u, e = EAsc c u -> exists w, nth_error T' c = Some w /\ rust w
}.
Lemma dwalk_ok k sfuel : vd_ok (dexpr G E k sfuel) -> forall uu asc i e st st', expr_of G i = Some e -> i < last -> DInv (tys st) -> Kept (tys st) -> known_ty (tys st) i ->
  (uu = true -> unit_at (tys st) i) -> (uu = false -> ~ unit_at (tys st) i) -> asc_ok uu asc i ->
  dwalk E (sexpr G E sfuel []) (dexpr G E k sfuel) uu asc e st = WOk st' -> terr st' = false -> below uu i e (tys st) (tys st').
Proof.
  intros V uu asc i e st st' Ee Li HD HK (ti & Eti & Nti) UA NU AO H NE. assert (KNi : known_ty (tys st) i) by (exists ti; auto).
  assert (KID : forall c, In c (children e) -> kid G i c) by (intros c Ic; split; [exact Li|exists e; auto]).
  assert (LT : forall c, In c (children e) -> c < last) by (intros c Ic; pose proof (kid_lt (KID c Ic)); lia).
  assert (KN : uu = false -> Forall (known_ty (tys st)) (visits e)).
  { intros Q. refine (proj2 (proj2 (di_shape HD)) i e ti Li Ee Eti Nti _). destruct (is_unit_kind ti) eqn:U; [|reflexivity]. exfalso. apply (NU Q). exists ti. auto. }
  assert (ONE : forall T0 c uu' asc' st1 st2, children e = [c] -> DInv (tys st1) -> Kept (tys st1) -> step T0 (tys st1) -> T0 = tys st ->
    (forall j, nth_error (tys st1) j = nth_error T0 j \/ reaches (exprs G) c j) -> uu' = uu ->
    (uu = false -> known_ty (tys st1) c) -> asc_ok uu asc' c -> (uu = false -> forall c' u, e = EAsc c' u -> c' = c /\ exists a, asc' = Some a) ->
    dexpr G E k sfuel uu' asc' c st1 = WOk st2 -> terr st2 = false -> below uu i e T0 (tys st2)).
  { intros T0 c uu' asc' st1 st2 EC D1 HK1 S1 ET F1 -> KC AO' AC KK NE'. subst T0. assert (Ic : In c (children e)) by (rewrite EC; left; reflexivity).
    assert (PR : pre uu asc' c (tys st1)).
    { split; [exact D1|exact HK1| |exact (LT c Ic)| |exact KC|exact AO']; [intros _; exists i; split; [exact (KID c Ic)|exact (step_known S1 KNi)]|].
      intros Q. exists i. split; [exact (KID c Ic)|exact (step_unit S1 (UA Q))]. }
    destruct (V _ _ _ _ _ PR KK NE') as [D2 HK2 S2 F2 DN2 U2 R2]. split.
    - exact D2.
    - exact HK2.
    - exact (step_trans S1 S2).
    - intros j. destruct (F2 j) as [Q|Q]; [rewrite Q; destruct (F1 j) as [Q'|Q']; [auto|]|]; right; exists c; auto.
    - intros c' y Ic' R. rewrite EC in Ic'. destruct Ic' as [<-|[]]. exact (DN2 y R).
    - intros Q c' Ic'. rewrite EC in Ic'. destruct Ic' as [<-|[]]. exact (U2 Q).
    - intros Q c' u Eu. destruct (AC Q c' u Eu) as (-> & a & ->). exact (R2 Q a eq_refl). }
  assert (LEAF : children e = [] -> (forall c u, e <> EAsc c u) -> st' = st -> below uu i e (tys st) (tys st')).
  { intros EC NA ->. split; [exact HD|exact HK|apply step_refl|auto| | |].
    - intros c y Ic. rewrite EC in Ic. destruct Ic.
    - intros _ c Ic. rewrite EC in Ic. destruct Ic.
    - intros _ c u Q. destruct (NA c u Q). }
  assert (ASC : forall a c, In c (children e) -> asc_ok uu None c /\ (asc = Some a -> asc_ok uu (Some a) c)).
  { intros a c Ic. split; [intros _ b Q; discriminate|]. intros Q. rewrite <- Q. exact (asc_down AO (KID c Ic)). }
  assert (SIMPLE : forall c, children e = [c] -> visits e = [c] -> (forall c u, e <> EAsc c u) -> dexpr G E k sfuel uu asc c st = WOk st' -> below uu i e (tys st) (tys st')).
  { intros c EC EV NA KK. refine (ONE (tys st) c uu asc st st' EC HD HK (step_refl _) eq_refl _ eq_refl _ (asc_down AO (KID c ltac:(rewrite EC; left; reflexivity))) _ KK NE); [auto| |intros _ c' u Q; destruct (NA c' u Q)].
    intros Q. specialize (KN Q). rewrite EV in KN. inversion KN. assumption. }
  assert (PRED : forall c, children e = [c] -> const_ty E e = Some IInvisible -> (forall c u, e <> EAsc c u) -> dexpr G E k sfuel uu asc c st = WOk st' -> below uu i e (tys st) (tys st')).
  { intros c EC CT NA KK. assert (UT : unit_at (tys st) i).
    { exists ti. split; [exact Eti|]. destruct (proj1 (proj2 (di_shape HD)) i e _ ti Li Ee CT Eti) as [Q|[->|[[Q _]|[Q _]]]]; [congruence|reflexivity|exact Q|discriminate]. }
    assert (UUT : uu = true) by (destruct uu; [reflexivity|destruct (NU eq_refl UT)]).
    refine (ONE (tys st) c uu asc st st' EC HD HK (step_refl _) eq_refl _ eq_refl _ (asc_down AO (KID c ltac:(rewrite EC; left; reflexivity))) _ KK NE); [auto|congruence|intros _ c' u Q; destruct (NA c' u Q)]. }
  assert (LIST : forall vd l, children e = l -> visits e = l -> (forall c u, e <> EAsc c u) ->
    (forall c s s', vd c s = WOk s' -> exists asc', (In c (children e) -> asc_ok uu asc' c) /\ dexpr G E k sfuel uu asc' c s = WOk s') -> dexprs vd l st = WOk st' -> below uu i e (tys st) (tys st')).
  { intros vd l EC EV NA HV KK.
    destruct (@dexprs_ok i e vd uu Ee Li) with (l := l) (st := st) (st' := st') as ((A & A') & B & C & D & F); auto.
    - intros c s s' Hs. destruct (HV c s s' Hs) as (a & _ & Hd). exact (dexpr_err Hd).
    - intros c s s' Ic Ds DKs Kis Us Ks Hs NEs. destruct (HV c s s' Hs) as (a & Aa & Hd). specialize (Aa Ic). exists a. refine (V _ _ _ _ _ _ Hd NEs).
      split; [exact Ds|exact DKs|intros _; exists i; split; [exact (KID c Ic)|exact Kis]|exact (LT c Ic)| |exact Ks|exact Aa]. intros Q. exists i. split; [exact (KID c Ic)|exact (Us Q)].
    - rewrite EC. apply incl_refl.
    - rewrite <- EV. exact KN.
    - subst l. split; auto. intros _ c u Q. destruct (NA c u Q). }
  destruct e as [lit| |cls|id|p|l|l|c|c|c|c|c|c b f|c u|c|c]; cbn [dwalk] in H.
  - apply LEAF; [reflexivity|discriminate|congruence].
  - apply LEAF; [reflexivity|discriminate|congruence].
  - apply LEAF; [reflexivity|discriminate|congruence].
  - apply LEAF; [reflexivity|discriminate|congruence].
  - apply LEAF; [reflexivity|discriminate|congruence].
  - destruct asc as [a|].
    + refine (LIST _ l eq_refl eq_refl _ _ H); [discriminate|]. intros c s s' KK. cbv beta in KK. apply wbind_ok in KK. destruct KK as (t & Et & KK).
      destruct (is_unit_kind t); [exists None|exists (Some a)]; (split; [intros Ic; destruct (ASC a c Ic) as [A1 A2]; auto|exact KK]).
    + refine (LIST _ l eq_refl eq_refl _ _ H); [discriminate|]. intros c s s' K. exists None. split; [intros Ic; exact (proj1 (ASC IInfer c Ic))|exact K].
  - refine (LIST _ l eq_refl eq_refl _ _ H); [discriminate|]. intros c s s' K. exists asc. split; [intros Ic; exact (asc_down AO (KID c Ic))|exact K].
  - exact (SIMPLE c eq_refl eq_refl ltac:(discriminate) H).
  - exact (SIMPLE c eq_refl eq_refl ltac:(discriminate) H).
  - exact (SIMPLE c eq_refl eq_refl ltac:(discriminate) H).
  - exact (PRED c eq_refl eq_refl ltac:(discriminate) H).
  - exact (PRED c eq_refl eq_refl ltac:(discriminate) H).
  - apply wbind_ok in H. destruct H as ([tc sc] & Ec & H). cbn [snd] in H. destruct (sexpr_D HD Ec) as (D1 & S1 & R1 & N1 & F1).
    refine (ONE (tys st) c uu None sc st' eq_refl D1 (K_sexpr HD HK Ec (not_err (dexpr_err H) NE)) S1 eq_refl F1 eq_refl _ (proj1 (ASC IInfer c (or_introl eq_refl))) _ H NE); [|discriminate]. intros _. exists tc. auto.
  - apply wbind_ok in H. destruct H as (s1 & H1 & H). apply wbind_ok in H. destruct H as (s2 & H2 & H).
    assert (E1 : tys s1 = tys st).
    { destruct asc; [|congruence]. unfold check_ascription in H1. apply wbind_ok in H1. destruct H1 as (bb & _ & H1). apply WOk_inj' in H1. subst s1. destruct bb; reflexivity. }
    destruct uu.
    + apply WOk_inj' in H2. subst s2. refine (ONE (tys st) c true (Some u) s1 st' eq_refl _ _ _ eq_refl _ eq_refl _ _ _ H NE); try discriminate; rewrite ?E1; auto using step_refl.
    + apply wbind_ok in H2. destruct H2 as ([tc sc] & Ec & H2). apply WOk_inj' in H2. cbn [snd] in H2. subst s2.
      assert (HD1 : DInv (tys s1)) by (rewrite E1; exact HD). assert (HK1 : Kept (tys s1)) by (rewrite E1; exact HK). destruct (sexpr_D HD1 Ec) as (D1 & S1 & R1 & N1 & F1). rewrite E1 in S1, F1.
      refine (ONE (tys st) c false (Some u) sc st' eq_refl D1 (K_sexpr HD1 HK1 Ec (not_err (dexpr_err H) NE)) S1 eq_refl F1 eq_refl _ _ _ H NE).
      * intros _. exists tc. auto.
      * intros _ aty Q. injection Q as <-.
        destruct (proj1 (proj2 (di_shape HD)) i _ _ ti Li Ee eq_refl Eti) as [Q|[->|[[Q _]|[Q _]]]]; [congruence| |exfalso; apply (NU eq_refl); exists ti; auto|
          exfalso; destruct (tg_asc HG Ee) as [X|[X|(s & X)]]; congruence].
        destruct (tg_asc HG Ee) as [->|[->|R]]; [exfalso; apply (NU eq_refl); eexists; split; [exact Eti|reflexivity]..|].
        destruct R as (s & ->). exists s. split; [reflexivity|]. exists i, c. split; [exact Ee|constructor].
      * intros _ c' u' Q. injection Q as <- <-. eauto.
  - exact (SIMPLE c eq_refl eq_refl ltac:(discriminate) H).
  - exact (SIMPLE c eq_refl eq_refl ltac:(discriminate) H).
Qed.

Theorem dexpr_ok fuel sfuel : vd_ok (dexpr G E fuel sfuel).
Proof.
  induction fuel as [|k V]; intros uu asc i st st' [HD HK PA Li UU KN AO] H NE; [discriminate|]. cbn [dexpr] in H. apply wbind_ok in H. destruct H as (t & Et & H).
  apply tget_ok in Et. destruct (expr_of G i) as [e|] eqn:Ee; [|discriminate]. cbv zeta in H.
  assert (LT : forall c, In c (children e) -> c < i) by (intros c Ic; apply kid_lt; split; [exact Li|exists e; auto]).
  (* the expression itself, once everything below is done *)
  assert (FIN : forall uu' T1 T2 ti, step (tys st) T1 -> dframe (tys st) T1 i -> nth_error T1 i = Some ti -> ti <> IInfer -> (uu' = is_unit_kind ti) ->
    (uu = true -> uu' = true) -> (uu = false -> forall aty, asc = Some aty -> rust ti) ->
    below uu' i e T1 T2 -> post uu asc i (tys st) T2).
  { intros uu' T1 T2 ti S1 F1 Eti Nti EU MU RU [D2 K2 S2 F2 DN2 U2 A2].
    assert (SAME : nth_error T2 i = Some ti).
    { destruct (F2 i) as [Q|(c & Ic & R)]; [congruence|]. apply (reaches_le HG) in R. specialize (LT c Ic). lia. }
    assert (UI : unit_at T2 i <-> uu' = true).
    { split; [intros (v & Ev & Uv); congruence|]. intros Q. exists ti. split; [exact SAME|congruence]. }
    split; [exact D2|exact K2|exact (step_trans S1 S2)| | |intros Q; apply UI; auto|].
    - intros j. destruct (F2 j) as [Q|(c & Ic & R)]; [rewrite Q; exact (F1 j)|]. right. exact (rc_child Ee Ic R).
    - intros y R. assert (RR : y = i \/ exists e' c, nth_error (exprs G) i = Some e' /\ In c (children e') /\ reaches (exprs G) c y) by (destruct R; eauto 6).
      destruct RR as [->|(e' & c & Eq & Ic & R')].
      + split.
        * exists ti. auto.
        * intros U c (_ & e' & Ee' & Ic). assert (e' = e) by congruence. subst e'. apply U2; [apply UI; exact U|exact Ic].
        * intros c u Ey NU. assert (e = EAsc c u) by congruence. subst e. refine (A2 _ c u eq_refl). destruct uu'; [|reflexivity]. exfalso. apply NU, UI. reflexivity.
      + assert (e' = e) by (unfold expr_of in Ee; congruence). subst e'. exact (DN2 c y Ic R').
    - intros Q aty Ea. exists ti. split; [exact SAME|exact (RU Q aty Ea)]. }
  destruct uu.
  - destruct (UU eq_refl) as (p & Kp & Up). destruct (set_unit_D HD Kp Up) as [D1 S1].
    assert (L : i < length (tys st)) by (apply nth_error_Some; congruence).
    assert (AT : nth_error (update (tys st) i (IRegular TUnit)) i = Some (IRegular TUnit)) by (rewrite nth_update, Nat.eqb_refl by exact L; reflexivity).
    refine (FIN true (update (tys st) i (IRegular TUnit)) (tys st') (IRegular TUnit) S1 _ AT _ eq_refl _ _ _); try discriminate; auto.
    + intros j. rewrite nth_update by exact L. destruct (Nat.eqb_spec j i) as [->|D]; [right; constructor|auto].
    + refine (@dwalk_ok k sfuel V true asc i e (tset i (IRegular TUnit) st) st' Ee Li D1 (K_unit HD HK Kp Up) _ _ _ _ H NE); try discriminate.
      * eexists. split; [exact AT|discriminate].
      * intros _. eexists. split; [exact AT|reflexivity].
  - destruct (KN eq_refl) as (t' & Et' & Nt). assert (t' = t) by congruence. subst t'.
    destruct asc as [aty|].
    + destruct (AO eq_refl aty eq_refl) as (s & -> & AB). destruct (is_external t) eqn:EX.
      * apply external_cases in EX. subst t. destruct (set_rust_D HD AB Li Et) as [D1 S1].
        assert (L : i < length (tys st)) by (apply nth_error_Some; congruence).
        assert (AT : nth_error (update (tys st) i (IRegular (TRust s))) i = Some (IRegular (TRust s))) by (rewrite nth_update, Nat.eqb_refl by exact L; reflexivity).
        refine (FIN false (update (tys st) i (IRegular (TRust s))) (tys st') (IRegular (TRust s)) S1 _ AT _ eq_refl _ _ _); try discriminate.
        -- intros j. rewrite nth_update by exact L. destruct (Nat.eqb_spec j i) as [->|D]; [right; constructor|auto].
        -- intros _ a _. exists s. reflexivity.
        -- refine (@dwalk_ok k sfuel V false _ i e (tset i _ st) st' Ee Li D1 (K_rust HD HK AB Li Et (PA ltac:(discriminate))) _ _ _ AO H NE); try discriminate.
           ++ eexists. split; [exact AT|discriminate].
           ++ intros _ (v & Ev & Uv). cbn [tset tys] in Ev. rewrite AT in Ev. injection Ev as <-. discriminate.
      * apply wbind_ok in H. destruct H as (s1 & H1 & H). unfold check_ascription in H1. apply wbind_ok in H1. destruct H1 as (b & Hb & H1). apply WOk_inj' in H1. subst s1.
        destruct b.
        2: { exfalso. refine (eq_true_false_abs _ (_ : terr st' = true) NE). clear - H.
             assert (W : keeps_err (tfail st) st').
             { destruct e as [lit| |cls|id|p|l|l|j|j|j|j|j|j b f|j v|j|j]; cbn [dwalk] in H; try (injection H as <-; intros X; exact X); try (exact (dexpr_err H)).
               - refine (dexprs_err _ H). intros c x x' K. apply wbind_ok in K. destruct K as (y & _ & K). exact (dexpr_err K).
               - refine (dexprs_err _ H). intros c x x'. apply dexpr_err.
               - apply wbind_ok in H. destruct H as ([tc sc] & Ec & H). intros X. exact (dexpr_err H (sexpr_err Ec X)).
               - apply wbind_ok in H. destruct H as (s1 & H1 & H). apply wbind_ok in H. destruct H as (s2 & H2 & H). intros X. apply (dexpr_err H).
                 apply wbind_ok in H2. destruct H2 as ([tc sc] & Ec & H2). apply WOk_inj' in H2. subst s2. exact (sexpr_err Ec (check_err H1 X)). }
             exact (W eq_refl). }
        apply syn_eq_same in Hb. destruct Hb as [Hb _]. specialize (Hb eq_refl). assert (RT : rust t) by (inversion Hb; subst; eexists; reflexivity).
        assert (UT : is_unit_kind t = false) by (destruct RT as (x & ->); reflexivity).
        refine (FIN false (tys st) (tys st') t (step_refl _) _ Et Nt _ _ _ _); try discriminate; [intros j; auto|congruence|auto|].
        refine (@dwalk_ok k sfuel V false _ i e st st' Ee Li HD HK _ _ _ AO H NE); [exists t; auto|discriminate|]. intros _ (v & Ev & Uv). congruence.
    + refine (FIN (is_unit_kind t) (tys st) (tys st') t (step_refl _) _ Et Nt eq_refl _ _ _); try discriminate; [intros j; auto|].
      refine (@dwalk_ok k sfuel V (is_unit_kind t) None i e st st' Ee Li HD HK _ _ _ _ H NE).
      * exists t. auto.
      * intros Q. exists t. auto.
      * intros Q (v & Ev & Uv). congruence.
      * intros _ a Q. discriminate.
Qed.

(** The whole pass. *)
Theorem depth_ok fuel sfuel : forall xs st st' (before : nat -> Prop), Forall (root G) xs -> DInv (tys st) -> Kept (tys st) -> (forall y, before y -> y < last /\ done (tys st) y) ->
  dexprs (dexpr G E fuel sfuel false None) xs st = WOk st' -> terr st' = false ->
  (DInv (tys st') /\ Kept (tys st')) /\ step (tys st) (tys st') /\ (forall x, In x xs -> forall y, reaches (exprs G) x y -> done (tys st') y) /\ (forall y, before y -> done (tys st') y).
Proof.
  induction xs as [|x xs IH]; intros st st' before RT HD HK BE H NE; cbn [dexprs] in H.
  - injection H as <-. split; [auto|]. split; [apply step_refl|]. split; [intros x []|]. intros y B. exact (proj2 (BE y B)).
  - apply wbind_ok in H. destruct H as (s & Hs & H). inversion RT as [|? ? RX RT']; subst.
    assert (NEs : terr s = false) by (refine (not_err (dexprs_err _ H) NE); intros c a b K; exact (dexpr_err K)).
    pose proof (fo_bound HF RX) as Lx.
    assert (PR : pre false None x (tys st)).
    { split; [exact HD|exact HK|congruence|exact Lx|discriminate| |intros _ a Q; discriminate]. intros _. destruct RX as (rl & Irl & <-). exact (di_roots HD Irl). }
    destruct (dexpr_ok PR Hs NEs) as [D1 K1 S1 F1 DN1 _ _].
    destruct (IH s st' (fun y => before y \/ reaches (exprs G) x y) RT' D1 K1) as (D2 & S2 & DN2 & B2); auto.
    + intros y [B|R]; [|split; [exact (reaches_last Lx R)|exact (DN1 y R)]]. destruct (BE y B) as [Ly Dy]. split; [exact Ly|].
      refine (done_frame Lx F1 DN1 Ly _ Dy). exact (fo_root HF RX).
    + split; [exact D2|]. split; [exact (step_trans S1 S2)|]. split; [|auto]. intros z [<-|Iz] y R; [apply B2; auto|exact (DN2 z Iz y R)].
Qed.
End Kept.
End Depth.
