(** The types of the table of inference, read as the types of TypeSpec.v. *)
From Verif Require Import Base Grammar WellFormed Analysis AnalysisFacts Typing TypeRules SurfaceFacts RefFacts DepthFacts TypingSound TypingTop TypingVerdict FrontSpec TreeSpec TypeSpec.
Set Implicit Arguments. Unset Strict Implicit.
Open Scope string_scope. Open Scope nat_scope. Open Scope list_scope.

(** ---------------- the specification is deterministic ---------------- *)
Lemma akin_foreign y : akin y YForeign -> y = YForeign. Proof. unfold akin. destruct y; cbn; congruence. Qed.
Lemma akin_inv y z : akin y z -> unseen y = unseen z. Proof. unfold akin. destruct y, z; cbn; congruence. Qed.
Lemma akin_refl y : akin y y. Proof. reflexivity. Qed.
Lemma akin_sym y z : akin y z -> akin z y. Proof. unfold akin. congruence. Qed.
Lemma akin_trans x y z : akin x y -> akin y z -> akin x z. Proof. unfold akin. congruence. Qed.
Lemma first_det (l r l' r' : list vtype) y y' : l ++ y :: r = l' ++ y' :: r' -> (forall z, In z l -> z = YForeign) -> (forall z, In z l' -> z = YForeign) ->
  (forall z, In z r -> akin z y \/ z = YForeign) -> (forall z, In z r' -> akin z y' \/ z = YForeign) -> y = y'.
Proof.
  revert l'. induction l as [|a l IH]; intros [|a' l'] Q A A' B B'; cbn in Q.
  - injection Q as Q _. exact Q.
  - injection Q as Q1 Q2. subst r a'. rewrite (A' y (or_introl eq_refl)) in *. destruct (B y' ltac:(apply in_or_app; right; left; reflexivity)) as [K| ->]; [|reflexivity]. symmetry. exact (akin_foreign K).
  - injection Q as Q1 Q2. subst r' a. rewrite (A y' (or_introl eq_refl)) in *. destruct (B' y ltac:(apply in_or_app; right; left; reflexivity)) as [K| ->]; [|reflexivity]. exact (akin_foreign K).
  - injection Q as Q1 Q2. apply (IH l' Q2); auto; intros z I; [apply A|apply A']; right; exact I.
Qed.
Lemma first_unit (l r : list vtype) y : (forall z, In z l -> z = YForeign) -> (forall z, In z r -> akin z y \/ z = YForeign) ->
  In YInv (l ++ y :: r) -> In YUnit (l ++ y :: r) -> False.
Proof.
  intros A B I1 I2. assert (K : forall z, z <> YForeign -> In z (l ++ y :: r) -> akin z y).
  { intros z N I. apply in_app_or in I. destruct I as [I|[<-|I]]; [destruct (N (A z I))|reflexivity|destruct (B z I) as [Q|Q]; [exact Q|destruct (N Q)]]. }
  pose proof (K YInv ltac:(discriminate) I1) as Q1. pose proof (K YUnit ltac:(discriminate) I2) as Q2. unfold akin in *. cbn in *. congruence.
Qed.
Lemma agree_det ys y y' : agree ys y -> agree ys y' -> y = y'.
Proof.
  intros [(l & r & Q & A & B)|(-> & A2 & A3 & A4)] [(l' & r' & Q' & A' & B')|(-> & B2 & B3 & B4)].
  - subst ys. exact (first_det Q' A A' B B').
  - subst ys. destruct (first_unit A B B2 B3).
  - subst ys. destruct (first_unit A' B' A2 A3).
  - reflexivity.
Qed.
Lemma has_det_both rs ret : (forall t y, has rs ret t y -> forall y', has rs ret t y' -> y = y') /\ (forall l ys, have rs ret l ys -> forall ys', have rs ret l ys' -> ys = ys').
Proof.
  apply has_mutind; intros; match goal with H : has _ _ _ ?k' |- _ = ?k' => inversion H; subst | H : have _ _ _ ?k' |- _ = ?k' => inversion H; subst end; try reflexivity; try congruence;
    try match goal with A : rule_called _ _ = Some ?a, B : rule_called _ _ = Some ?b |- _ => assert (a = b) as -> by congruence end; auto; try (f_equal; auto; fail).
  - match goal with IH : forall ys', have _ _ _ ys' -> ?a = ys', H : have _ _ _ ?b |- _ => pose proof (IH _ H); subst end. eapply agree_det; eassumption.
  - f_equal. f_equal. f_equal. auto.
Qed.
Lemma has_det rs ret t y y' : has rs ret t y -> has rs ret t y' -> y = y'. Proof. intros A B. exact (proj1 (has_det_both rs ret) t y A y' B). Qed.
Lemma have_in rs ret l ys : have rs ret l ys -> forall t, In t l -> exists y, In y ys /\ has rs ret t y.
Proof. induction 1 as [|t l y ys H HL IH]; intros c I; [destruct I|]. destruct I as [<-|I]; [exists y; cbn; auto|]. destruct (IH c I) as (z & Iz & Hz). exists z. cbn. auto. Qed.

(** ---------------- reading the table ---------------- *)
Section Den.
Variable R : nat -> Prop.
Variable T : list ity.
Inductive den : ity -> vtype -> Prop :=
| de_inv : den IInvisible YInv
| de_ext : den IExternal YForeign
| de_unit : den (IRegular TUnit) YUnit
| de_atom : den (IRegular TAtom) YChar
| de_rust s : den (IRegular (TRust s)) (YRust s)
| de_opt i u y : R i -> nth_error T i = Some u -> den u y -> den (IRegular (TOptional i)) (YOpt y)
| de_list i u y : R i -> nth_error T i = Some u -> den u y -> den (IRegular (TList i)) (YList y)
| de_tup l ys : dens l ys -> den (IRegular (TTuple l)) (YTup ys)
with dens : list nat -> list vtype -> Prop :=
| de_nil : dens [] []
| de_cons i l u y ys : R i -> nth_error T i = Some u -> den u y -> dens l ys -> dens (i :: l) (y :: ys).
End Den.
Scheme den_mind := Minimality for den Sort Prop with dens_mind := Minimality for dens Sort Prop.
Combined Scheme den_mutind from den_mind, dens_mind.

Lemma den_keep_both (R R' : nat -> Prop) T T' : (forall i u, R i -> nth_error T i = Some u -> u <> IInfer -> R' i /\ nth_error T' i = Some u) ->
  (forall u y, den R T u y -> den R' T' u y) /\ (forall l ys, dens R T l ys -> dens R' T' l ys).
Proof.
  intros K. assert (NI : forall u y, den R T u y -> u <> IInfer) by (intros u y D ->; inversion D).
  apply den_mutind; intros; try constructor; auto; try match goal with A : R ?i, B : nth_error T ?i = Some ?u, C : den R T ?u _ |- _ => destruct (K _ _ A B (NI _ _ C)) as [X Y] end; econstructor; eauto.
Qed.
Lemma den_keep (R R' : nat -> Prop) T T' u y : (forall i u, R i -> nth_error T i = Some u -> u <> IInfer -> R' i /\ nth_error T' i = Some u) -> den R T u y -> den R' T' u y.
Proof. intros K. apply den_keep_both. exact K. Qed.
Lemma dens_keep (R R' : nat -> Prop) T T' u y : (forall i u, R i -> nth_error T i = Some u -> u <> IInfer -> R' i /\ nth_error T' i = Some u) -> dens R T u y -> dens R' T' u y.
Proof. intros K. apply den_keep_both. exact K. Qed.
Lemma den_infer R T y : ~ den R T IInfer y. Proof. intros D. inversion D. Qed.
Lemma den_rec R T r y : ~ den R T (IRec r) y. Proof. intros D. inversion D. Qed.
Lemma den_void R T R' T' u y : nothing y = true -> den R T u y -> den R' T' u y.
Proof. intros N D. inversion D; subst; try discriminate N; constructor. Qed.
Lemma den_unit R T u y : den R T u y -> is_unit_kind u = nothing y. Proof. intros D. inversion D; reflexivity. Qed.
Lemma den_unseen R T u y : den R T u y -> is_invisible u = unseen y. Proof. intros D. inversion D; reflexivity. Qed.

(** The table is read in one way. *)
Lemma den_fun_both R T : (forall a y, den R T a y -> forall R' z, den R' T a z -> y = z) /\ (forall l ys, dens R T l ys -> forall R' zs, dens R' T l zs -> ys = zs).
Proof.
  apply den_mutind; intros; match goal with D : den _ _ _ ?z |- _ = ?z => inversion D; subst | D : dens _ _ _ ?z |- _ = ?z => inversion D; subst end; try reflexivity;
    repeat match goal with A : nth_error ?T ?i = Some ?a, B : nth_error ?T ?i = Some ?b |- _ => first [constr_eq a b; clear B | assert (a = b) by congruence; subst b; clear B] end; f_equal; eauto.
Qed.
Lemma den_fun R R' T a y z : den R T a y -> den R' T a z -> y = z. Proof. intros A B. exact (proj1 (den_fun_both R T) a y A R' z B). Qed.

(** Comparison. *)
Lemma same_den_both T : (forall a b, same T a b -> forall R R' y z, den R T a y -> den R' T b z -> nameless y = nameless z) /\
  (forall l m, same_all T l m -> forall R R' ys zs, dens R T l ys -> dens R' T m zs -> map nameless ys = map nameless zs).
Proof.
  apply same_mutind; intros; repeat match goal with D : den _ _ (IRegular _) _ |- _ => inversion D; clear D; subst | D : den _ _ IInvisible _ |- _ => inversion D; clear D; subst
    | D : den _ _ IExternal _ |- _ => inversion D; clear D; subst | D : den _ _ (IRec _) _ |- _ => inversion D | D : dens _ _ [] _ |- _ => inversion D; clear D; subst | D : dens _ _ (_ :: _) _ |- _ => inversion D; clear D; subst end; try reflexivity;
    repeat match goal with A : nth_error ?T ?i = Some ?a, B : nth_error ?T ?i = Some ?b |- _ => first [constr_eq a b; clear B | assert (a = b) by congruence; subst b; clear B] end; cbn [nameless map]; f_equal; eauto.
Qed.
Lemma den_same_both T R : (forall a y, den R T a y -> forall R' b z, den R' T b z -> nameless y = nameless z -> same T a b) /\
  (forall l ys, dens R T l ys -> forall R' m zs, dens R' T m zs -> map nameless ys = map nameless zs -> same_all T l m).
Proof.
  apply den_mutind.
  - intros R' b z D Q. destruct D; try discriminate Q. constructor.
  - intros R' b z D Q. destruct D; try discriminate Q. constructor.
  - intros R' b z D Q. destruct D; try discriminate Q. constructor.
  - intros R' b z D Q. destruct D; try discriminate Q. constructor.
  - intros s R' b z D Q. destruct D; try discriminate Q. constructor.
  - intros i u y _ Ei _ IH R' b z D Q. destruct D as [ | | | | |j v y' _ Ej D| |]; try discriminate Q. cbn in Q. injection Q as Q. econstructor; eauto.
  - intros i u y _ Ei _ IH R' b z D Q. destruct D as [ | | | | | |j v y' _ Ej D|]; try discriminate Q. cbn in Q. injection Q as Q. econstructor; eauto.
  - intros l ys _ IH R' b z D Q. destruct D as [ | | | | | | |m zs D]; try discriminate Q. cbn in Q. injection Q as Q. econstructor. eauto.
  - intros R' m zs D Q. destruct D; [constructor|discriminate Q].
  - intros i l u y ys _ Ei _ IH _ IHl R' m zs D Q. destruct D as [|j m v z zs _ Ej Dv Dm]; [discriminate Q|]. cbn in Q. injection Q as Q1 Q2. econstructor; eauto.
Qed.
Lemma same_den T R R' a b y z : den R T a y -> den R' T b z -> (same T a b <-> akin y z).
Proof. intros A B. split; [intros S; exact (proj1 (same_den_both T) a b S R R' y z A B)|]. intros Q. exact (proj1 (den_same_both T R) a y A R' b z B Q). Qed.

(** Sequences. *)
Lemma dens_app R T l m ys zs : dens R T l ys -> dens R T m zs -> dens R T (l ++ m) (ys ++ zs).
Proof. induction 1; intros D; [exact D|]. cbn. econstructor; eauto. Qed.
Lemma inlining_den R T : forall l ys l', dens R T l ys -> tuple_inlining T l = WOk l' -> dens R T l' (flat_map spread ys).
Proof.
  induction l as [|i l IH]; intros ys l' D H; inversion D as [|? ? u y ys' Ri Ei Du Dl]; subst; cbn [tuple_inlining] in H; [apply WOk_inj' in H; subst; constructor|].
  apply wbind_ok in H. destruct H as (t & Et & H). apply tget_ok in Et. apply wbind_ok in H. destruct H as (r & Er & H). apply WOk_inj' in H. subst l'. pose proof (IH _ _ Dl Er) as D'.
  assert (t = u) by congruence. subst t. cbn [flat_map]. inversion Du; subst; cbn [spread]; try (cbn [app]; econstructor; eauto; fail). apply dens_app; assumption.
Qed.
Lemma scan_den R T : forall l ys r b q, dens R T l ys -> tuple_scan T l r b = WOk q -> fst q = r.
Proof.
  induction l as [|i l IH]; intros ys r b q D H; inversion D as [|? ? u y ys' Ri Ei Du Dl]; subst; cbn [tuple_scan] in H; [apply WOk_inj' in H; subst; reflexivity|].
  apply wbind_ok in H. destruct H as (t & Et & H). apply tget_ok in Et. assert (t = u) by congruence. subst t. inversion Du; subst; exact (IH _ _ _ _ Dl H).
Qed.
Lemma drop_den R T p (q : vtype -> bool) : (forall u y, den R T u y -> p u = q y) -> forall l ys l', dens R T l ys -> tuple_drop T p l = WOk l' -> dens R T l' (filter (fun y => negb (q y)) ys).
Proof.
  intros PQ. induction l as [|i l IH]; intros ys l' D H; inversion D as [|? ? u y ys' Ri Ei Du Dl]; subst; cbn [tuple_drop] in H; [apply WOk_inj' in H; subst; constructor|].
  apply wbind_ok in H. destruct H as (t & Et & H). apply tget_ok in Et. assert (t = u) by congruence. subst t. apply wbind_ok in H. destruct H as (r & Er & H). apply WOk_inj' in H. subst l'. pose proof (IH _ _ Dl Er) as D'.
  cbn [filter]. rewrite (PQ _ _ Du). destruct (q y); cbn [negb]; [exact D'|econstructor; eauto].
Qed.
Lemma dens_len R T l ys : dens R T l ys -> length l = length ys. Proof. induction 1; cbn; congruence. Qed.
Lemma tuple_den R T l ys u : dens R T l ys -> reduce_tuple T l = WOk u -> den R T u (seq_type ys).
Proof.
  intros D H. unfold reduce_tuple in H. destruct l as [|i0 l0] eqn:EL; [discriminate|]. rewrite <- EL in *. clear EL.
  assert (K : wbind (tuple_inlining T l) (fun l => wbind (tuple_rec T l) (fun r => match r with Some t => WOk t | None => wbind (tuple_drop T is_invisible l) (fun l =>
      match l with [] => WOk IInvisible | _ => wbind (tuple_drop T is_regular_unit l) (fun l => match l with [] => WOk (IRegular TUnit) | [i] => tget T i | l => WOk (IRegular (TTuple l)) end) end) end)) = WOk u) by exact H. clear H.
  apply wbind_ok in K. destruct K as (l1 & E1 & K). pose proof (inlining_den D E1) as D1. apply wbind_ok in K. destruct K as (r & Er & K).
  unfold tuple_rec in Er. apply wbind_ok in Er. destruct Er as (q & Eq & Er). rewrite (scan_den D1 Eq) in Er. apply WOk_inj' in Er. subst r.
  apply wbind_ok in K. destruct K as (l2 & E2 & K). assert (D2 : dens R T l2 (filter (fun y => negb (unseen y)) (flat_map spread ys))) by (refine (drop_den _ D1 E2); intros v z Dv; exact (den_unseen Dv)).
  unfold seq_type. set (all := flat_map spread ys) in *. clearbody all.
  assert (FU : forallb unseen all = true <-> filter (fun y => negb (unseen y)) all = []).
  { clear. induction all as [|y all IH]; [split; reflexivity|]. cbn. destruct (unseen y); cbn; [exact IH|]. split; discriminate. }
  destruct l2 as [|i2 l2].
  { inversion D2 as [Q1 Q2|]. symmetry in Q2. apply FU in Q2. rewrite Q2. apply WOk_inj' in K. subst u. constructor. }
  destruct (forallb unseen all) eqn:FA; [rewrite (proj1 FU eq_refl) in D2; inversion D2|].
  apply wbind_ok in K. destruct K as (l3 & E3 & K).
  assert (D3 : dens R T l3 (filter (fun y => negb (match y with YUnit => true | _ => false end)) (filter (fun y => negb (unseen y)) all))) by (refine (drop_den _ D2 E3); intros v z Dv; inversion Dv; reflexivity).
  assert (FF : filter (fun y => negb (match y with YUnit => true | _ => false end)) (filter (fun y => negb (unseen y)) all) = filter (fun y => negb (nothing y)) all).
  { clear. induction all as [|y all IH]; [reflexivity|]. cbn. destruct y; cbn; rewrite ?IH; reflexivity. }
  rewrite FF in D3. destruct l3 as [|i3 [|i4 l4]].
  - inversion D3. apply WOk_inj' in K. subst u. constructor.
  - inversion D3 as [|? ? v y zs Ri Ei Dv Dn]; subst. inversion Dn; subst. apply tget_ok in K. assert (u = v) by congruence. subst v. exact Dv.
  - pose proof (dens_len D3) as L. apply WOk_inj' in K. subst u. destruct (filter (fun y => negb (nothing y)) all) as [|z1 [|z2 zs]]; cbn in L; try lia. constructor. exact D3.
Qed.

(** Choices. *)
Lemma sum_den R T fuel ts ys r : Forall2 (den R T) ts ys -> reduce_sum T fuel ts = WOk r ->
  match r with Some u => exists y, agree ys y /\ den R T u y | None => forall y, ~ agree ys y end.
Proof.
  intros F H. assert (NE : ts <> []) by (intros ->; discriminate). apply reduce_sum_spec in H.
  assert (NR : non_rec ts = ts).
  { clear - F. induction F as [|u k ts ks C F IH]; [reflexivity|]. unfold non_rec in *. cbn [filter]. rewrite IH. inversion C; subst; reflexivity. }
  assert (NP : no_poly ts).
  { clear - F. intros p I. assert (all_paths ts = []) as Q; [|rewrite Q in I; destruct I]. clear I p. induction F as [|u k ts ks C F IH]; [reflexivity|]. unfold all_paths in *. cbn [flat_map]. rewrite IH. inversion C; reflexivity. }
  assert (FWD : forall ts ys, Forall2 (den R T) ts ys -> forall u, In u ts -> exists y, In y ys /\ den R T u y).
  { clear. intros ts ys F. induction F as [|u k ts ks C F IH]; intros v I; [destruct I|]. destruct I as [<-|I]; [exists k; cbn; auto|]. destruct (IH v I) as (y & Iy & D). exists y. cbn. auto. }
  assert (BWD : forall ts ys, Forall2 (den R T) ts ys -> forall y, In y ys -> exists u, In u ts /\ den R T u y).
  { clear. intros ts ys F. induction F as [|u k ts ks C F IH]; intros v I; [destruct I|]. destruct I as [<-|I]; [exists u; cbn; auto|]. destruct (IH v I) as (y & Iy & D). exists y. cbn. auto. }
  destruct r as [u|].
  - destruct H as [_ CT]. destruct CT as [t l EQ FS|t l1 l2 IE EQ F1 NT F2|I1 I2 FU|r EQ _].
    + rewrite NR in EQ. subst ts. inversion F as [|? y ? ys' D F']; subst. exists y. split; [|exact D]. left. exists [], ys'. split; [reflexivity|]. split; [intros z []|]. intros z Iz.
      destruct (BWD _ _ F' z Iz) as (v & Iv & Dv). rewrite Forall_forall in FS. left. apply akin_sym. apply (same_den D Dv). exact (FS v Iv).
    + rewrite NR in EQ. subst ts. apply Forall2_app_inv_l in F. destruct F as (ys1 & ys2 & G1 & G2 & ->). inversion G2 as [|? y ? ys' D F']; subst. exists y. split; [|exact D]. left. exists ys1, ys'. split; [reflexivity|].
      rewrite Forall_forall in F1, F2. split; intros z Iz.
      * destruct (BWD _ _ G1 z Iz) as (v & Iv & Dv). rewrite <- (F1 v Iv) in Dv. inversion Dv. reflexivity.
      * destruct (BWD _ _ F' z Iz) as (v & Iv & Dv). destruct (F2 v Iv) as [->|S]; [inversion Dv; auto|]. left. apply akin_sym. apply (same_den D Dv). exact S.
    + exists YInv. split; [|constructor]. right. split; [reflexivity|]. split; [destruct (FWD _ _ F _ I1) as (z & Iz & Dz); inversion Dz; subst; exact Iz|].
      split; [destruct (FWD _ _ F _ I2) as (z & Iz & Dz); inversion Dz; subst; exact Iz|]. intros z Iz. destruct (BWD _ _ F z Iz) as (v & Iv & Dv). rewrite NR, Forall_forall in FU. destruct (FU v Iv) as [-> | ->]; inversion Dv; auto.
    + congruence.
  - intros y AG. apply H. split; [exact NP|]. destruct AG as [(l & r & -> & A & B)|(-> & A2 & A3 & A4)].
    + apply Forall2_app_inv_r in F. destruct F as (l1 & l2' & G1 & G2 & ET). inversion G2 as [|t ? l2 ? D F']; subst l2'. subst ts.
      assert (L1 : Forall (eq IExternal) l1).
      { apply Forall_forall. intros v Iv. destruct (FWD _ _ G1 v Iv) as (z & Iz & Dz). rewrite (A z Iz) in Dz. inversion Dz. reflexivity. }
      assert (L2 : forall v, In v l2 -> v = IExternal \/ same T t v).
      { intros v Iv. destruct (FWD _ _ F' v Iv) as (z & Iz & Dz). destruct (B z Iz) as [Q|Q]; [right; apply (same_den D Dz), akin_sym, Q|left; subst z; inversion Dz; reflexivity]. }
      assert (SE : forall v, t = IExternal -> In v l2 -> v = IExternal) by (intros v -> Iv; destruct (L2 v Iv) as [Q|Q]; [exact Q|inversion Q; reflexivity]).
      destruct (is_external t) eqn:TE.
      { apply external_cases in TE. assert (ALL : forall v, In v (l1 ++ t :: l2) -> v = IExternal).
        { intros v Iv. apply in_app_or in Iv. rewrite Forall_forall in L1. destruct Iv as [Iv|[<-|Iv]]; [symmetry; exact (L1 v Iv)|exact TE|exact (SE v TE Iv)]. }
        destruct (l1 ++ t :: l2) as [|v0 vs] eqn:EV; [congruence|]. exists v0. apply (@ct_same T (v0 :: vs) v0 vs NR). apply Forall_forall. intros v Iv. rewrite (ALL v0 (or_introl eq_refl)), (ALL v (or_intror Iv)). constructor. }
      assert (NT : t <> IExternal) by (intros ->; discriminate TE). exists t.
      destruct (existsb is_external (l1 ++ t :: l2)) eqn:EE.
      * apply existsb_exists in EE. destruct EE as (v & Iv & Q). apply external_cases in Q. subst v. apply (@ct_external T _ t l1 l2); auto. apply Forall_forall. exact L2.
      * assert (NX : forall v, In v (l1 ++ t :: l2) -> v <> IExternal). { intros v Iv ->. assert (Q : existsb is_external (l1 ++ t :: l2) = true) by (apply existsb_exists; exists IExternal; auto). congruence. }
        destruct l1 as [|v0 l1]; [|exfalso; apply (NX v0 (or_introl eq_refl)); symmetry; exact (Forall_inv L1)]. apply (@ct_same T _ t l2 NR). apply Forall_forall. intros v Iv.
        destruct (L2 v Iv) as [Q|Q]; [destruct (NX v (or_intror Iv) Q)|exact Q].
    + exists IInvisible. apply ct_unit.
      * destruct (BWD _ _ F _ A2) as (v & Iv & Dv). inversion Dv; subst. exact Iv.
      * destruct (BWD _ _ F _ A3) as (v & Iv & Dv). inversion Dv; subst. exact Iv.
      * rewrite NR. apply Forall_forall. intros v Iv. destruct (FWD _ _ F v Iv) as (w & Iw & Dw). destruct (A4 w Iw) as [-> | ->]; inversion Dw; auto.
Qed.
(** Unknown types. *)
Lemma dens_in R T l ys y : dens R T l ys -> In y ys -> exists i u, In i l /\ nth_error T i = Some u /\ den R T u y.
Proof. induction 1 as [|i l u z ys Ri Ei D DL IH]; intros I; [destruct I|]. destruct I as [<-|I]; [exists i, u; cbn; auto|]. destruct (IH I) as (j & v & Ij & Ej & Dj). exists j, v. cbn. auto. Qed.
Lemma dens_in' R T l ys i : dens R T l ys -> In i l -> exists y u, In y ys /\ nth_error T i = Some u /\ den R T u y.
Proof. induction 1 as [|j l u z ys Ri Ei D DL IH]; intros I; [destruct I|]. destruct I as [<-|I]; [exists z, u; cbn; auto|]. destruct (IH I) as (y & v & Ij & Ej & Dj). exists y, v. cbn. auto. Qed.
Lemma foreign_den R T u : mentions_external T u -> forall y, den R T u y -> foreign_in y.
Proof.
  induction 1 as [|i t Ei M IH|i t Ei M IH|l i t Ii Ei M IH]; intros y D; inversion D; subst.
  - constructor.
  - match goal with A : nth_error T i = Some ?v |- _ => assert (v = t) as -> by congruence end. constructor. auto.
  - match goal with A : nth_error T i = Some ?v |- _ => assert (v = t) as -> by congruence end. constructor. auto.
  - match goal with A : dens R T l _ |- _ => destruct (dens_in' A Ii) as (z & v & Iz & Ev & Dv) end. assert (v = t) as -> by congruence. econstructor; [exact Iz|]. auto.
Qed.
Lemma den_foreign R T y : foreign_in y -> forall u, den R T u y -> mentions_external T u.
Proof.
  induction 1 as [|y F IH|y F IH|l y I F IH]; intros u D; inversion D; subst.
  - constructor.
  - econstructor; eauto.
  - econstructor; eauto.
  - match goal with A : dens R T _ _ |- _ => destruct (dens_in A I) as (i & v & Ii & Ev & Dv) end. econstructor; eauto.
Qed.

(** ---------------- types in normal form ---------------- *)
Definition tupled (y : vtype) : bool := match y with YTup _ => true | _ => false end.
Inductive norm : vtype -> Prop :=
| no_inv : norm YInv
| no_unit : norm YUnit
| no_ext : norm YForeign
| no_atom : norm YChar
| no_rust s : norm (YRust s)
| no_opt y : unseen y = false -> norm y -> norm (YOpt y)
| no_list y : unseen y = false -> norm y -> norm (YList y)
| no_tup l : 2 <= length l -> Forall (fun y => nothing y = false /\ tupled y = false /\ norm y) l -> norm (YTup l).
Lemma norm_seq ys : Forall norm ys -> norm (seq_type ys).
Proof.
  intros F. assert (A : Forall (fun y => tupled y = false /\ norm y) (flat_map spread ys)).
  { induction F as [|y ys N F IH]; [constructor|]. cbn [flat_map]. apply Forall_app. split; [|exact IH]. destruct N; cbn [spread]; try (constructor; [split; [reflexivity|constructor; assumption]|constructor]; fail).
    eapply Forall_impl; [|exact H0]. intros a (_ & X & Y). auto. }
  unfold seq_type. set (all := flat_map spread ys) in *. clearbody all. destruct (forallb unseen all); [constructor|].
  assert (B : Forall (fun y => nothing y = false /\ tupled y = false /\ norm y) (filter (fun y => negb (nothing y)) all)).
  { apply Forall_forall. intros y I. apply filter_In in I. destruct I as [I N]. rewrite Forall_forall in A. destruct (A y I). repeat split; auto. destruct (nothing y); [discriminate|reflexivity]. }
  destruct (filter _ all) as [|z1 [|z2 zs]]; [constructor|exact (proj2 (proj2 (Forall_inv B)))|]. constructor; [cbn; lia|exact B].
Qed.
Lemma agree_in ys y : agree ys y -> In y ys.
Proof. intros [(l & r & -> & _)|(-> & A & _)]; [apply in_or_app; right; left; reflexivity|exact A]. Qed.
Lemma norm_rep w y : (w = YOpt \/ w = YList) -> norm y -> norm (rep_type w y).
Proof. intros W N. unfold rep_type. destruct (unseen y) eqn:Q; [constructor|]. destruct W as [-> | ->]; constructor; assumption. Qed.
Lemma has_norm_both rs ret : (forall t y, has rs ret t y -> norm y) /\ (forall l ys, have rs ret l ys -> Forall norm ys).
Proof.
  apply has_mutind; intros; try (constructor; fail); auto.
  - apply norm_seq. assumption.
  - match goal with F : Forall norm ?ys, A : agree ?ys ?y |- _ => rewrite Forall_forall in F; apply F, agree_in, A end.
  - apply norm_rep; auto.
  - apply norm_rep; auto.
  - apply norm_rep; auto.
  - unfold act_type. destruct p as [|f [|]]; try constructor. destruct (returns ret f) as [[]|]; constructor.
  - destruct ty as [| | | |[]]; constructor.
  - apply norm_seq. repeat constructor. assumption.
Qed.
Lemma has_norm rs ret t y : has rs ret t y -> norm y. Proof. apply has_norm_both. Qed.
Lemma seq_norm l : 2 <= length l -> Forall (fun y => nothing y = false /\ tupled y = false /\ norm y) l -> seq_type l = YTup l.
Proof.
  intros L F. assert (S1 : flat_map spread l = l).
  { clear L. induction F as [|y l (A & B & _) F IH]; [reflexivity|]. cbn [flat_map]. rewrite IH. destruct y; try discriminate B; reflexivity. }
  unfold seq_type. rewrite S1. assert (S2 : filter (fun y => negb (nothing y)) l = l).
  { clear L S1. induction F as [|y l (A & B & _) F IH]; [reflexivity|]. cbn [filter]. rewrite A, IH. reflexivity. }
  rewrite S2. destruct l as [|z1 [|z2 l]]; cbn in L; try lia. replace (forallb unseen (z1 :: z2 :: l)) with false; [reflexivity|].
  destruct (Forall_inv F) as (A & _). cbn. destruct z1; try discriminate A; reflexivity.
Qed.
Lemma unary_den R T i v y (w : nat -> ty) (wy : vtype -> vtype) u : nth_error T i = Some v -> den R T v y -> R i -> ((w = TOptional /\ wy = YOpt) \/ (w = TList /\ wy = YList)) ->
  reduce_unary T i (IRegular (w i)) = WOk u -> den R T u (rep_type wy y).
Proof.
  intros Ei D Ri W H. unfold reduce_unary in H. rewrite (tget_some Ei) in H. cbn [wbind] in H. apply WOk_inj' in H. subst u. unfold rep_type.
  destruct D; cbn [unseen]; try constructor; destruct W as [(-> & ->)|(-> & ->)]; econstructor; eauto; econstructor; eauto.
Qed.
Lemma reduce_norm R T u y u' : norm y -> den R T u y -> reduce T u = WOk u' -> den R T u' y.
Proof.
  intros N D H. destruct D as [ | | | |s|i v y Ri Ei D|i v y Ri Ei D|l ys D]; cbn [reduce] in H; try (apply WOk_inj' in H; subst u'; constructor).
  - inversion N; subst. pose proof (@unary_den R T i v y TOptional YOpt u' Ei D Ri ltac:(auto) H) as K. unfold rep_type in K. match goal with Q : unseen y = false |- _ => rewrite Q in K end. exact K.
  - inversion N; subst. pose proof (@unary_den R T i v y TList YList u' Ei D Ri ltac:(auto) H) as K. unfold rep_type in K. match goal with Q : unseen y = false |- _ => rewrite Q in K end. exact K.
  - inversion N; subst. pose proof (tuple_den D H) as K. rewrite seq_norm in K by assumption. exact K.
Qed.
