(** Invariants of the bottom-up inference ([surface]). *)
From Verif Require Import Base Grammar WellFormed Analysis AnalysisFacts Typing TypeRules.
Set Implicit Arguments. Unset Strict Implicit.
Open Scope string_scope. Open Scope nat_scope. Open Scope list_scope.

(** What the front end and the first analyses guarantee: children before parents, declared rules,
    no empty sequence or choice, ascriptions written by the user (front/parser.rs:128-160), ranges of
    an expression without data (front/parser.rs:177-193). *)
Record typable (G : grammar) : Prop := {
  tg_children : forall i e, expr_of G i = Some e -> Forall (fun j => j < i) (children e);
  tg_nt : forall i id, expr_of G i = Some (ENT id) -> exists rl, find_rule G id = Some rl;
  tg_seq : forall i, expr_of G i <> Some (ESeq []);
  tg_alt : forall i, expr_of G i <> Some (EAlt []);
  tg_asc : forall i j t, expr_of G i = Some (EAsc j t) -> t = IInvisible \/ t = IRegular TUnit \/ exists s, t = IRegular (TRust s);
  tg_range : forall i j, expr_of G i = Some (ERange j) -> exists k, expr_of G j = Some (EAsc k (IRegular TUnit));
  tg_rules : forall rl, In rl (rules G) -> rexpr rl < length (exprs G)
}.

(** Every expression belongs to one rule. *)
Record owned (G : grammar) (own : nat -> string) : Prop := {
  ow_root : forall rl, In rl (rules G) -> own (rexpr rl) = rname rl;
  ow_child : forall i e j, expr_of G i = Some e -> In j (children e) -> own j = own i
}.

Definition settledb (t : ity) : bool := match t with IInfer | IRec _ => false | _ => true end.
Definition known_ty (T : list ity) (i : nat) : Prop := exists t, nth_error T i = Some t /\ t <> IInfer.

Lemma typed_settled T i : typed T i <-> exists t, nth_error T i = Some t /\ settledb t = true.
Proof.
  split; intros (t & E & H); exists t; (split; [exact E|]).
  - destruct H as [N R]. destruct t; cbn in *; congruence.
  - destruct t; cbn in *; try discriminate; split; congruence.
Qed.
Lemma find_rule_name G id rl : find_rule G id = Some rl -> rname rl = id /\ In rl (rules G).
Proof. unfold find_rule. intros H. apply find_some in H. destruct H as [I E]. apply String.eqb_eq in E. auto. Qed.
Lemma update_same A (l : list A) i a : nth_error l i = Some a -> update l i a = l.
Proof.
  intros H. unfold update. apply nth_error_split in H. destruct H as (l1 & l2 & -> & <-). rewrite firstn_app, firstn_all, Nat.sub_diag. cbn [firstn].
  rewrite app_nil_r. f_equal. f_equal. rewrite skipn_app, skipn_all2 by lia. replace (S (length l1) - length l1) with 1 by lia. reflexivity.
Qed.

(** Types only become more precise. *)
Record ext (T T' : list ity) : Prop := {
  ex_len : length T' = length T;
  ex_settled : forall j t, nth_error T j = Some t -> settledb t = true -> nth_error T' j = Some t;
  ex_known : forall j, known_ty T j -> known_ty T' j
}.
Lemma ext_refl T : ext T T. Proof. split; auto. Qed.
Lemma ext_trans T1 T2 T3 : ext T1 T2 -> ext T2 T3 -> ext T1 T3.
Proof. intros [L1 S1 K1] [L2 S2 K2]. split; [congruence|auto|auto]. Qed.

Section Surface.
Variable G : grammar.
Variable E : tenv.
Hypothesis HG : typable G.
Variable own : nat -> string.
Hypothesis HO : owned G own.

Lemma reaches_own i j : reaches (exprs G) i j -> own j = own i.
Proof. induction 1 as [|i e j k Ei Ij R IH]; [reflexivity|]. rewrite IH. exact (ow_child HO Ei Ij). Qed.
Lemma reaches_le i j : reaches (exprs G) i j -> j <= i.
Proof.
  induction 1 as [|i e j k Ei Ij R IH]; [lia|]. pose proof (tg_children HG Ei) as F. rewrite Forall_forall in F. specialize (F j Ij). cbv beta in F. lia.
Qed.

Definition known_rule (path : list string) (T : list ity) (id : string) : Prop :=
  exists rl, find_rule G id = Some rl /\ (In id path \/ known_ty T (rexpr rl)).
(** A type that may be stored. *)
Definition tyok (path : list string) (T : list ity) (t : ity) : Prop :=
  match t with
  | IInfer => False
  | IRec r => r <> [] /\ Forall (fun p => snd p <> [] /\ Forall (known_rule path T) (snd p)) r
  | IRegular (TOptional j) | IRegular (TList j) => exists u, nth_error T j = Some u /\ settledb u = true /\ u <> IInvisible
  | IRegular (TTuple l) => 2 <= length l /\ Forall (fun j => exists u, nth_error T j = Some u /\ is_value_type u = true) l
  | _ => True
  end.
Record Inv (path : list string) (T : list ity) : Prop := {
  iv_len : length T = length (exprs G);
  iv_span : exists s, nth_error T (length T - 1) = Some (IRegular (TRust s));
  iv_ty : forall i t, nth_error T i = Some t -> t <> IInfer -> tyok path T t
}.

Lemma value_settled t : is_value_type t = true -> settledb t = true.
Proof. destruct t as [| | | |[]]; cbn; congruence. Qed.
Lemma known_rule_ext path T T' id : ext T T' -> known_rule path T id -> known_rule path T' id.
Proof. intros X (rl & F & [I|K]); exists rl; (split; [exact F|]); [auto|right; exact (ex_known X K)]. Qed.
Lemma tyok_ext path T T' t : ext T T' -> tyok path T t -> tyok path T' t.
Proof.
  intros X. destruct t as [|r| | |[| |j|j|l|s]]; cbn [tyok]; try tauto.
  - intros [N F]. split; [exact N|]. eapply Forall_impl; [|exact F]. intros p [N' F']. split; [exact N'|].
    eapply Forall_impl; [|exact F']. intros id. apply known_rule_ext, X.
  - intros (u & Eu & S1 & N). exists u. split; [exact (ex_settled X Eu S1)|auto].
  - intros (u & Eu & S1 & N). exists u. split; [exact (ex_settled X Eu S1)|auto].
  - intros [L F]. split; [exact L|]. eapply Forall_impl; [|exact F]. intros j (u & Eu & V). exists u.
    split; [exact (ex_settled X Eu (value_settled V))|exact V].
Qed.
Lemma tyok_weaken path id T t : tyok path T t -> tyok (id :: path) T t.
Proof.
  destruct t as [|r| | |[| |j|j|l|s]]; cbn [tyok]; try tauto. intros [N F]. split; [exact N|]. eapply Forall_impl; [|exact F].
  intros p [N' F']. split; [exact N'|]. eapply Forall_impl; [|exact F']. intros x (rl & Fx & [I|K]); exists rl; cbn; auto.
Qed.
Lemma tyok_leave path id rl T t : find_rule G id = Some rl -> known_ty T (rexpr rl) -> tyok (id :: path) T t -> tyok path T t.
Proof.
  intros Fr Kr. destruct t as [|r| | |[| |j|j|l|s]]; cbn [tyok]; try tauto. intros [N F]. split; [exact N|]. eapply Forall_impl; [|exact F].
  intros p [N' F']. split; [exact N'|]. eapply Forall_impl; [|exact F']. intros x (rl' & Fx & [[<-|I]|K]); exists rl'; (split; [exact Fx|]); auto.
  right. congruence.
Qed.
Lemma Inv_weaken path id T : Inv path T -> Inv (id :: path) T.
Proof. intros [L S1 H]. split; [exact L|exact S1|]. intros i t Ei N. apply tyok_weaken. exact (H i t Ei N). Qed.
Lemma Inv_leave path id rl T : find_rule G id = Some rl -> known_ty T (rexpr rl) -> Inv (id :: path) T -> Inv path T.
Proof. intros F K [L S1 H]. split; [exact L|exact S1|]. intros i t Ei N. exact (tyok_leave F K (H i t Ei N)). Qed.

Lemma Inv_flat path T : Inv path T -> flat T.
Proof. intros H i l Ei. exact (iv_ty H Ei ltac:(discriminate)). Qed.

(** Storing a type where there was none, or a recursive one. *)
Lemma set_ext T i t u : nth_error T i = Some u -> settledb u = false -> t <> IInfer -> ext T (update T i t).
Proof.
  intros Ei Su N. assert (L : i < length T) by (apply nth_error_Some; congruence). split.
  - apply length_update, L.
  - intros j v Ej Sv. rewrite nth_update by exact L. destruct (Nat.eqb_spec j i) as [->|D]; [congruence|exact Ej].
  - intros j (v & Ej & Nv). unfold known_ty. rewrite nth_update by exact L. destruct (Nat.eqb_spec j i); eauto.
Qed.
Lemma set_inv path T i t u : Inv path T -> nth_error T i = Some u -> settledb u = false -> tyok path T t ->
  Inv path (update T i t) /\ ext T (update T i t) /\ nth_error (update T i t) i = Some t.
Proof.
  intros [L SP H] Ei Su TY. assert (N : t <> IInfer) by (intros ->; exact TY). pose proof (set_ext Ei Su N) as X.
  assert (LT : i < length T) by (apply nth_error_Some; congruence).
  split; [|split; [exact X|rewrite nth_update, Nat.eqb_refl by exact LT; reflexivity]]. split.
  - rewrite (ex_len X). exact L.
  - destruct SP as (s & SP). exists s. rewrite (ex_len X). exact (ex_settled X SP eq_refl).
  - intros j v. rewrite nth_update by exact LT. destruct (Nat.eqb_spec j i) as [->|D]; intros Ej Nv.
    + injection Ej as <-. exact (tyok_ext X TY).
    + exact (tyok_ext X (H j v Ej Nv)).
Qed.

(** ---------------- reductions ---------------- *)
Lemma first_non_rec_ok T ids u : first_non_rec G T ids = WOk u ->
  u = IInvisible \/ exists id rl, In id ids /\ find_rule G id = Some rl /\ nth_error T (rexpr rl) = Some u /\ is_rec_ty u = false.
Proof.
  induction ids as [|id ids IH]; intros H; cbn [first_non_rec] in H; [left; congruence|].
  destruct (find_rule G id) as [rl|] eqn:F; [|discriminate]. apply wbind_ok in H. destruct H as (t & Et & H). apply tget_ok in Et.
  destruct t as [|r| | |t]; try (injection H as <-; right; exists id, rl; cbn; auto).
  destruct (IH H) as [->|(id' & rl' & I & F' & E' & R')]; [auto|]. right. exists id', rl'. cbn. auto.
Qed.
Lemma reduce_rec_ok path T r u : Inv path T -> tyok path T (IRec r) -> reduce_rec G T (IRec r) = WOk u ->
  is_rec_ty u = false /\ (u = IInfer \/ tyok path T u) /\ (path = [] -> u <> IInfer).
Proof.
  intros HI TY H. cbn [reduce_rec] in H. destruct (is_poly r); [injection H as <-; split; [reflexivity|]; split; [right; exact I|discriminate]|].
  apply first_non_rec_ok in H. destruct H as [->|(id & rl & I1 & F & Eu & R)]; [split; [reflexivity|]; split; [right; exact I|discriminate]|].
  split; [exact R|]. split.
  - destruct u; auto; right; exact (iv_ty HI Eu ltac:(discriminate)).
  - intros ->. destruct TY as [_ TY]. apply in_flat_map in I1. destruct I1 as (p & Ip & I1). rewrite Forall_forall in TY. destruct (TY p Ip) as [_ K].
    rewrite Forall_forall in K. destruct (K id I1) as (rl' & F' & [[]|(v & Ev & Nv)]). congruence.
Qed.

(** What [reduce] receives. *)
Definition raw (path : list string) (T : list ity) (t : ity) : Prop :=
  match t with
  | IRegular (TOptional j) | IRegular (TList j) => known_ty T j
  | IRegular (TTuple l) => l <> [] /\ Forall (known_ty T) l
  | t => t = IInfer \/ tyok path T t
  end.
Lemma to_poly_ok path T r : tyok path T (IRec r) -> tyok path T (IRec (to_poly r)).
Proof.
  intros [N F]. split; [destruct r; [congruence|discriminate]|]. unfold to_poly. apply Forall_map. eapply Forall_impl; [|exact F]. intros p H. exact H.
Qed.
Lemma contrib_value T : flat T -> forall i, typed T i -> Forall (fun j => exists u, nth_error T j = Some u /\ is_value_type u = true) (contrib T i).
Proof.
  intros HF i (t & Et & N & R). unfold contrib. rewrite Et. destruct t as [| | | |[| |j|j|l|s]]; cbn in R; try congruence; try constructor;
    try (eexists; split; [exact Et|reflexivity]); try constructor. exact (proj2 (HF _ _ Et)).
Qed.
Lemma reduce_tuple_ok path T l t : Inv path T -> l <> [] -> Forall (known_ty T) l -> reduce_tuple T l = WOk t -> tyok path T t.
Proof.
  intros HI NE F H. pose proof (Inv_flat HI) as HF.
  assert (D : Forall (typed T) l \/ exists i r, In i l /\ nth_error T i = Some (IRec r)).
  { clear NE H. induction F as [|i l (u & Eu & Nu) F IH]; [left; constructor|]. destruct IH as [IH|(j & r & I1 & I2)]; [|right; exists j, r; cbn; auto].
    destruct (is_rec_ty u) eqn:R; [right; destruct u; try discriminate; exists i, r; cbn; auto|left; constructor; [exists u; auto|exact IH]]. }
  destruct D as [D|(i & r & I1 & I2)].
  - rewrite (reduce_tuple_spec HF NE D) in H.
    assert (FV : Forall (fun j => exists u, nth_error T j = Some u /\ is_value_type u = true) (flat_map (contrib T) l)).
    { apply Forall_flat_map. eapply Forall_impl; [|exact D]. exact (contrib_value HF). }
    destruct (flat_map (contrib T) l) as [|j [|k js]].
    + injection H as <-. destruct (forallb (invisible_at T) l); exact I.
    + apply tget_ok in H. inversion FV as [|? ? (u & Eu & V) _]; subst. assert (u = t) by congruence. subst u.
      apply (iv_ty HI H). intros ->. discriminate.
    + injection H as <-. split; [cbn; lia|exact FV].
  - pose proof (iv_ty HI I2 ltac:(discriminate)) as TY.
    destruct (@reduce_tuple_rec T HF l t F H ltac:(exists i, r; split; [exact I1|]; split; [exact I2|exact (proj1 TY)])) as (q & -> & NQ & Q & _).
    split; [exact NQ|]. apply Forall_forall. intros p Ip. assert (Ip' : In (snd p) (map snd q)) by (apply in_map; exact Ip).
    apply Q in Ip'. destruct Ip' as (i' & q' & A & B & C). apply in_map_iff in C. destruct C as (p' & Ep & Ip').
    destruct (iv_ty HI B ltac:(discriminate)) as [_ FQ]. rewrite Forall_forall in FQ. rewrite <- Ep. exact (FQ p' Ip').
Qed.
Lemma reduce_ok path T t t' : Inv path T -> raw path T t -> reduce T t = WOk t' -> tyok path T t'.
Proof.
  intros HI R H. destruct t as [|r| | |[| |j|j|l|s]]; cbn [reduce] in H; try discriminate; try (injection H as <-; destruct R as [R|R]; [discriminate|exact R]).
  - unfold reduce_unary in H. destruct R as (u & Eu & Nu). rewrite (tget_some Eu) in H. cbn [wbind] in H. apply WOk_inj' in H. subst t'.
    destruct u; try exact I; try congruence; try (exists (IRegular t); split; [exact Eu|split; [reflexivity|discriminate]]);
      try (exists IExternal; split; [exact Eu|split; [reflexivity|discriminate]]). apply to_poly_ok. exact (iv_ty HI Eu ltac:(discriminate)).
  - unfold reduce_unary in H. destruct R as (u & Eu & Nu). rewrite (tget_some Eu) in H. cbn [wbind] in H. apply WOk_inj' in H. subst t'.
    destruct u; try exact I; try congruence; try (exists (IRegular t); split; [exact Eu|split; [reflexivity|discriminate]]);
      try (exists IExternal; split; [exact Eu|split; [reflexivity|discriminate]]). apply to_poly_ok. exact (iv_ty HI Eu ltac:(discriminate)).
  - exact (reduce_tuple_ok HI (proj1 R) (proj2 R) H).
Qed.

Lemma reduce_sum_ok path T fuel ts t : Forall (tyok path T) ts -> reduce_sum T fuel ts = WOk (Some t) -> tyok path T t.
Proof.
  intros F H. assert (NE : ts <> []) by (intros ->; discriminate). apply reduce_sum_spec in H. destruct H as [_ CT].
  assert (IN : forall u, In u (non_rec ts) -> tyok path T u).
  { intros u I. apply filter_In in I. rewrite Forall_forall in F. apply F, I. }
  destruct CT as [t l EQ _|t l1 l2 _ EQ _ _ _|_ _ _|r EQ P]; try exact I.
  - apply IN. rewrite EQ. left. reflexivity.
  - apply IN. rewrite EQ. apply in_or_app. right. left. reflexivity.
  - rewrite Forall_forall in F. split.
    + destruct ts as [|u ts]; [congruence|]. destruct u as [|q| | |u]; try discriminate. destruct (F (IRec q) (or_introl eq_refl)) as [NQ _].
      destruct q as [|p q]; [congruence|]. intros ->. apply (P p). unfold all_paths. cbn. auto.
    + apply Forall_forall. intros p Ip. apply P in Ip. apply in_flat_map in Ip. destruct Ip as (u & Iu & Ip). destruct u; try destruct Ip.
      destruct (F _ Iu) as [_ FQ]. rewrite Forall_forall in FQ. apply FQ, Ip.
Qed.

(** ---------------- the visitor ---------------- *)
Lemma rec_type_ok path T id rl : find_rule G id = Some rl -> In id path -> Forall (fun x => exists rl, find_rule G x = Some rl) path -> tyok path T (rec_type path id).
Proof.
  intros F I1 FP. split; [discriminate|]. constructor; [|constructor]. cbn [snd]. split; [discriminate|]. constructor; [exists rl; auto|].
  assert (SUB : forall l x, In x (take_while (fun r => negb (r =? id)%string) l) -> In x l).
  { induction l as [|a l IH]; intros x Hx; [exact Hx|]. cbn in Hx. destruct (a =? id)%string; cbn in Hx; [destruct Hx|]. destruct Hx as [<-|Hx]; cbn; auto. }
  apply Forall_forall. intros x Hx. apply SUB in Hx. rewrite Forall_forall in FP. destruct (FP x Hx) as (rl' & F'). exists rl'. auto.
Qed.

Definition path_ok (path : list string) : Prop := Forall (fun x => exists rl, find_rule G x = Some rl) path.
(** Where a visit may start: in the rule being visited, or anywhere once all the rules are typed. *)
Definition here (path : list string) (T : list ity) (i : nat) : Prop :=
  match path with [] => forall rl, In rl (rules G) -> known_ty T (rexpr rl) | a :: _ => own i = a end.
(** What it may change: the expression, and rules that are not being visited. *)
Definition frame (path : list string) (i : nat) (T T' : list ity) : Prop :=
  forall j, nth_error T' j = nth_error T j \/ reaches (exprs G) i j \/ (path <> [] /\ ~ In (own j) path).
Definition vis_ok' (ve : list string -> nat -> tst -> wres (ity * tst)) : Prop := forall path i st t st', path_ok path ->
  here path (tys st) i -> Inv path (tys st) -> ve path i st = WOk (t, st') ->
  Inv path (tys st') /\ ext (tys st) (tys st') /\ nth_error (tys st') i = Some t /\ t <> IInfer /\ (terr st = true -> terr st' = true)
  /\ frame path i (tys st) (tys st').
Lemma here_ext path T T' i j : ext T T' -> own j = own i -> here path T i -> here path T' j.
Proof. intros X O. destruct path as [|a path]; cbn; [|congruence]. intros H rl I1. exact (ex_known X (H rl I1)). Qed.
(** Changes outside the rule being visited. *)
Definition away (path : list string) (T T' : list ity) : Prop :=
  forall j, nth_error T' j = nth_error T j \/ (path <> [] /\ ~ In (own j) path).
Lemma away_refl path T : away path T T. Proof. intros j. auto. Qed.
Lemma frame_trans path i T1 T2 T3 : frame path i T1 T2 -> frame path i T2 T3 -> frame path i T1 T3.
Proof. intros F1 F2 j. destruct (F2 j) as [H|H]; [|auto]. rewrite H. apply F1. Qed.

Lemma srule_ok ve : vis_ok' ve -> forall path id st t st', path_ok path ->
 Inv path (tys st) -> srule G ve path id st = WOk (t, st') ->
  (path = [] -> t <> IInfer) /\
  (t <> IInfer -> Inv path (tys st') /\ ext (tys st) (tys st') /\ tyok path (tys st') t /\ (terr st = true -> terr st' = true)
     /\ (here path (tys st) 0 \/ path <> [] -> away path (tys st) (tys st'))
     /\ exists rl, find_rule G id = Some rl /\ (In id path \/ nth_error (tys st') (rexpr rl) = Some t)).
Proof.
  intros V path id st t st' PO HI H. unfold srule in H.
  assert (EF : exists rl, find_rule G id = Some rl) by (destruct (find_rule G id); [eauto|discriminate]). destruct EF as (rl & F). rewrite F in H.
  apply wbind_ok in H. destruct H as (u & Eu & H). apply tget_ok in Eu.
  assert (MEMO : u <> IInfer -> WOk (u, st) = WOk (t, st') -> (path = [] -> t <> IInfer) /\
    (t <> IInfer -> Inv path (tys st') /\ ext (tys st) (tys st') /\ tyok path (tys st') t /\ (terr st = true -> terr st' = true)
     /\ (here path (tys st) 0 \/ path <> [] -> away path (tys st) (tys st'))
     /\ exists rl, find_rule G id = Some rl /\ (In id path \/ nth_error (tys st') (rexpr rl) = Some t))).
  { intros N K. apply WOk_inj', pair_inj in K. destruct K as [<- <-]. split; [auto|]. intros _. split; [exact HI|]. split; [apply ext_refl|].
    split; [exact (iv_ty HI Eu N)|]. split; [auto|]. split; [intros _; apply away_refl|]. exists rl. auto. }
  destruct u as [|r| | |u]; try (apply MEMO; [discriminate|exact H]). clear MEMO.
  destruct (existsb (String.eqb id) path) eqn:EX.
  - apply existsb_exists in EX. destruct EX as (x & Ix & Ex). apply String.eqb_eq in Ex. subst x. apply WOk_inj', pair_inj in H. destruct H as [<- <-].
    split; [intros _; discriminate|]. intros _. split; [exact HI|]. split; [apply ext_refl|]. split; [exact (rec_type_ok _ F Ix PO)|]. split; [auto|].
    split; [intros _; apply away_refl|]. exists rl. auto.
  - assert (NP : ~ In id path). { intros Q. rewrite <- not_true_iff_false in EX. apply EX, existsb_exists. exists id. split; [exact Q|apply String.eqb_refl]. }
    apply wbind_ok in H. destruct H as ([t1 st1] & E1 & H). cbn [fst snd] in H. apply wbind_ok in H. destruct H as (t2 & E2 & H).
    apply WOk_inj', pair_inj in H. destruct H as [<- <-].
    assert (PO' : path_ok (id :: path)) by (constructor; [exists rl; exact F|exact PO]).
    destruct (find_rule_name F) as [RN RI]. assert (OW : own (rexpr rl) = id) by (rewrite (ow_root HO RI); exact RN).
    destruct (V (id :: path) (rexpr rl) st t1 st1 PO' OW (Inv_weaken id HI) E1) as (I1 & X1 & R1 & N1 & M1 & FR1).
    assert (K1 : known_ty (tys st1) (rexpr rl)) by (exists t1; auto). pose proof (Inv_leave F K1 I1) as I1'.
    assert (AW : here path (tys st) 0 \/ path <> [] -> forall T', (forall j, nth_error T' j = nth_error (tys st1) j \/ j = rexpr rl) -> away path (tys st) T').
    { intros HH T' D j.
      assert (PN : path <> []). { destruct HH as [HH|HH]; [|exact HH]. intros ->. destruct (HH rl RI) as (v & Ev & Nv). congruence. }
      destruct (D j) as [->| ->]; [|right; rewrite OW; auto]. destruct (FR1 j) as [->|[R|[_ R]]]; [auto| |].
      - right. rewrite (reaches_own R), OW. auto.
      - right. split; [exact PN|]. intros Q. apply R. right. exact Q. }
    assert (DONE : t2 = t1 -> (path = [] -> t2 <> IInfer) /\
     (t2 <> IInfer -> Inv path (tys (tset (rexpr rl) t2 st1)) /\ ext (tys st) (tys (tset (rexpr rl) t2 st1)) /\ tyok path (tys (tset (rexpr rl) t2 st1)) t2
      /\ (terr st = true -> terr (tset (rexpr rl) t2 st1) = true)
      /\ (here path (tys st) 0 \/ path <> [] -> away path (tys st) (tys (tset (rexpr rl) t2 st1)))
      /\ exists rl0, find_rule G id = Some rl0 /\ (In id path \/ nth_error (tys (tset (rexpr rl) t2 st1)) (rexpr rl0) = Some t2))).
    { intros ->. split; [auto|]. intros _. unfold tset. cbn [tys terr]. rewrite (update_same R1). split; [exact I1'|]. split; [exact X1|].
      split; [exact (iv_ty I1' R1 N1)|]. split; [exact M1|]. split; [intros HH; apply AW; auto|]. exists rl. auto. }
    unfold reduce_rec_entry_point in E2. destruct t1 as [|r| | |t1]; try (apply DONE; congruence).
    apply wbind_ok in E2. destruct E2 as (e & Ee & E2). destruct (e =? id)%string; [|apply DONE; congruence]. clear DONE.
    destruct (@reduce_rec_ok path (tys st1) r t2 I1' (iv_ty I1' R1 N1) E2) as (R2 & T2 & P2). split; [exact P2|]. intros N2. destruct T2 as [->|T2]; [congruence|].
    destruct (set_inv I1' R1 eq_refl T2) as (A & B & C). unfold tset. cbn [tys terr]. split; [exact A|]. split; [exact (ext_trans X1 B)|].
    split; [exact (tyok_ext B T2)|]. split; [exact M1|]. split; [|exists rl; auto].
    intros HH. apply AW; [exact HH|]. intros j. rewrite nth_update by (apply nth_error_Some; congruence). destruct (Nat.eqb_spec j (rexpr rl)); auto.
Qed.

Lemma sexprs_ok ve path i e : vis_ok' ve -> path_ok path -> expr_of G i = Some e -> forall l st ts st', incl l (children e) ->
  here path (tys st) i -> Inv path (tys st) -> sexprs (ve path) l st = WOk (ts, st') ->
  Inv path (tys st') /\ ext (tys st) (tys st') /\ Forall (known_ty (tys st')) l /\ Forall (tyok path (tys st')) ts /\ (terr st = true -> terr st' = true)
  /\ (forall j, nth_error (tys st') j = nth_error (tys st) j \/ (exists c, In c (children e) /\ reaches (exprs G) c j) \/ (path <> [] /\ ~ In (own j) path)).
Proof.
  intros V PO Ee. induction l as [|c l IH]; intros st ts st' SUB HH HI H; cbn [sexprs] in H.
  - apply WOk_inj', pair_inj in H. destruct H as [<- <-]. split; [exact HI|]. split; [apply ext_refl|]. auto 6.
  - apply wbind_ok in H. destruct H as ([t st1] & E1 & H). apply wbind_ok in H. destruct H as ([ts2 st2] & E2 & H). cbn [fst snd] in *.
    apply WOk_inj', pair_inj in H. destruct H as [<- <-]. assert (IC : In c (children e)) by (apply SUB; left; reflexivity).
    pose proof (ow_child HO Ee IC) as OC.
    destruct (V _ _ _ _ _ PO (here_ext (ext_refl _) OC HH) HI E1) as (I1 & X1 & R1 & N1 & M1 & F1).
    destruct (IH _ _ _ ltac:(intros x Hx; apply SUB; right; exact Hx) (here_ext X1 eq_refl HH) I1 E2) as (I2 & X2 & K2 & F2 & M2 & FR2).
    split; [exact I2|]. split; [exact (ext_trans X1 X2)|]. split; [|split; [|split; [auto|]]].
    + constructor; [apply (ex_known X2); exists t; auto|exact K2].
    + constructor; [|exact F2]. exact (tyok_ext X2 (iv_ty I1 R1 N1)).
    + intros j. destruct (FR2 j) as [Q|Q]; [|auto]. rewrite Q. destruct (F1 j) as [R|[R|R]]; eauto 6.
Qed.

Lemma action_type_ok path T b f : tyok path T (action_type E b f).
Proof. unfold action_type. destruct f as [[|s [|]]|]; try exact I. destruct (ret_of E s) as [[|]|]; exact I. Qed.

Lemma swalk_ok ve : vis_ok' ve -> forall path i e st t st', path_ok path -> here path (tys st) i -> Inv path (tys st) -> expr_of G i = Some e ->
  swalk G E ve path e st = WOk (t, st') -> t <> IInfer ->
  Inv path (tys st') /\ ext (tys st) (tys st') /\ raw path (tys st') t /\ (terr st = true -> terr st' = true)
  /\ (forall j, nth_error (tys st') j = nth_error (tys st) j \/ (exists c, In c (children e) /\ reaches (exprs G) c j) \/ (path <> [] /\ ~ In (own j) path)).
Proof.
  intros V path i e st t st' PO HH HI Ee H NI.
  assert (LEAF : forall u, (forall T, raw path T u) -> WOk (u, st) = WOk (t, st') ->
    Inv path (tys st') /\ ext (tys st) (tys st') /\ raw path (tys st') t /\ (terr st = true -> terr st' = true)
    /\ (forall j, nth_error (tys st') j = nth_error (tys st) j \/ (exists c, In c (children e) /\ reaches (exprs G) c j) \/ (path <> [] /\ ~ In (own j) path))).
  { intros u R K. apply WOk_inj', pair_inj in K. destruct K as [<- <-]. split; [exact HI|]. split; [apply ext_refl|]. split; [apply R|auto]. }
  assert (CHILD : forall j u, In j (children e) -> (forall T, known_ty T j -> (exists s, nth_error T (length T - 1) = Some (IRegular (TRust s))) -> raw path T (u (length T))) ->
    wbind (ve path j st) (fun q => WOk (u (length (tys (snd q))), snd q)) = WOk (t, st') ->
    Inv path (tys st') /\ ext (tys st) (tys st') /\ raw path (tys st') t /\ (terr st = true -> terr st' = true)
    /\ (forall j, nth_error (tys st') j = nth_error (tys st) j \/ (exists c, In c (children e) /\ reaches (exprs G) c j) \/ (path <> [] /\ ~ In (own j) path))).
  { intros j u IC R K. apply wbind_ok in K. destruct K as ([t1 st1] & E1 & K). apply WOk_inj', pair_inj in K. cbn [snd] in K. destruct K as [<- <-].
    destruct (V _ _ _ _ _ PO (here_ext (ext_refl _) (ow_child HO Ee IC) HH) HI E1) as (I1 & X1 & R1 & N1 & M1 & F1).
    split; [exact I1|]. split; [exact X1|]. split; [|split; [exact M1|]].
    - apply R; [exists t1; auto|exact (iv_span I1)].
    - intros k. destruct (F1 k) as [Q|[Q|Q]]; eauto 6. }
  assert (RAW : forall T u, tyok path T u -> raw path T u).
  { intros T u TY. destruct u as [|r| | |[| |k|k|l|s]]; cbn [raw]; auto.
    + destruct TY as (u & Eu & Su & _). exists u. split; [exact Eu|]. intros ->. discriminate.
    + destruct TY as (u & Eu & Su & _). exists u. split; [exact Eu|]. intros ->. discriminate.
    + destruct TY as [L F]. split; [intros ->; cbn in L; lia|]. eapply Forall_impl; [|exact F]. intros k (u & Eu & Vu). exists u. split; [exact Eu|]. intros ->. discriminate. }
  destruct e as [lit| |cls|id|p|l|l|j|j|j|j|j|j b f|j u|j|j]; cbn [swalk] in H.
  - exact (LEAF IInvisible ltac:(intros; right; exact I) H).
  - exact (LEAF (IRegular TAtom) ltac:(intros; right; exact I) H).
  - exact (LEAF (IRegular TAtom) ltac:(intros; right; exact I) H).
  - destruct (srule_ok V PO HI H) as [_ K]. destruct (K NI) as (A & B & C & D & AW & _). split; [exact A|]. split; [exact B|].
    split; [apply RAW, C|]. split; [exact D|]. intros j. destruct (AW ltac:(destruct path; [left; exact HH|right; discriminate]) j); auto.
  - exact (LEAF IExternal ltac:(intros; right; exact I) H).
  - apply wbind_ok in H. destruct H as ([ts st1] & E1 & H). cbn [snd] in H. apply WOk_inj', pair_inj in H. destruct H as [<- <-].
    destruct (sexprs_ok V PO Ee (incl_refl _) HH HI E1) as (A & B & C & D & M & FR). split; [exact A|]. split; [exact B|]. split; [|auto]. split; [|exact C].
    intros ->. exact (tg_seq HG Ee).
  - apply wbind_ok in H. destruct H as ([ts st1] & E1 & H). cbn [fst snd] in H. apply wbind_ok in H. destruct H as (r & Er & H). apply WOk_inj' in H.
    destruct (sexprs_ok V PO Ee (incl_refl _) HH HI E1) as (A & B & C & D & M & FR). destruct r as [u|]; apply pair_inj in H; destruct H as [<- <-].
    + split; [exact A|]. split; [exact B|]. split; [|auto]. apply RAW. exact (reduce_sum_ok D Er).
    + unfold tfail. cbn [tys terr]. split; [exact A|]. split; [exact B|]. split; [right; exact I|]. auto.
  - exact (CHILD j (fun _ => IRegular (TList j)) ltac:(left; reflexivity) ltac:(intros T K _; exact K) H).
  - exact (CHILD j (fun _ => IRegular (TList j)) ltac:(left; reflexivity) ltac:(intros T K _; exact K) H).
  - exact (CHILD j (fun _ => IRegular (TOptional j)) ltac:(left; reflexivity) ltac:(intros T K _; exact K) H).
  - exact (LEAF IInvisible ltac:(intros; right; exact I) H).
  - exact (LEAF IInvisible ltac:(intros; right; exact I) H).
  - refine (LEAF (action_type E b f) _ H). intros T. apply RAW, action_type_ok.
  - refine (LEAF u _ H). intros T. destruct (tg_asc HG Ee) as [->|[->|(s & ->)]]; right; exact I.
  - refine (CHILD j (fun n => IRegular (TTuple [n - 1; j])) ltac:(left; reflexivity) _ H).
    intros T K (s & ES). split; [discriminate|]. constructor; [|constructor; [exact K|constructor]]. eexists. split; [exact ES|discriminate].
  - exact (CHILD j (fun _ => IRegular (TRust (range_ty E))) ltac:(left; reflexivity) ltac:(intros T K _; right; exact I) H).
Qed.

(** The walk below an expression does not type the expression itself. *)
Lemma walk_leaves path i e (T T' : list ity) : here path T i -> expr_of G i = Some e ->
  (forall j, nth_error T' j = nth_error T j \/ (exists c, In c (children e) /\ reaches (exprs G) c j) \/ (path <> [] /\ ~ In (own j) path)) ->
  nth_error T' i = nth_error T i.
Proof.
  intros HH Ee FR. destruct (FR i) as [Q|[(c & Ic & R)|[N Q]]]; [exact Q| |].
  - exfalso. apply reaches_le in R. pose proof (tg_children HG Ee) as F. rewrite Forall_forall in F. specialize (F c Ic). cbv beta in F. lia.
  - exfalso. destruct path as [|a path]; [congruence|]. cbn in HH. apply Q. left. congruence.
Qed.

Theorem sexpr_ok fuel : vis_ok' (sexpr G E fuel).
Proof.
  induction fuel as [|k IH]; intros path i st t st' PO HH HI H; [discriminate|]. cbn [sexpr] in H. apply wbind_ok in H. destruct H as (u & Eu & H). apply tget_ok in Eu.
  assert (MEMO : u <> IInfer -> WOk (u, st) = WOk (t, st') ->
    Inv path (tys st') /\ ext (tys st) (tys st') /\ nth_error (tys st') i = Some t /\ t <> IInfer /\ (terr st = true -> terr st' = true)
    /\ frame path i (tys st) (tys st')).
  { intros N K. apply WOk_inj', pair_inj in K. destruct K as [<- <-]. split; [exact HI|]. split; [apply ext_refl|]. split; [exact Eu|]. split; [exact N|].
    split; [auto|]. intros j. auto. }
  destruct u as [|r| | |u]; try (apply MEMO; [discriminate|exact H]). clear MEMO.
  destruct (expr_of G i) as [e|] eqn:Ee; [|discriminate]. apply wbind_ok in H. destruct H as ([t1 st1] & E1 & H). cbn [fst snd] in H.
  apply wbind_ok in H. destruct H as (t2 & E2 & H). apply WOk_inj', pair_inj in H. destruct H as [<- <-].
  assert (N1 : t1 <> IInfer) by (intros ->; discriminate).
  destruct (swalk_ok IH PO HH HI Ee E1 N1) as (I1 & X1 & R1 & M1 & FR). pose proof (reduce_ok I1 R1 E2) as TY.
  pose proof (walk_leaves HH Ee FR) as SAME. rewrite Eu in SAME.
  destruct (set_inv I1 SAME eq_refl TY) as (A & B & C). unfold tset. cbn [tys terr]. split; [exact A|]. split; [exact (ext_trans X1 B)|].
  split; [exact C|]. split; [intros ->; exact TY|]. split; [exact M1|]. intros j. rewrite nth_update by (apply nth_error_Some; congruence).
  destruct (Nat.eqb_spec j i) as [->|D]; [right; left; constructor|]. destruct (FR j) as [Q|[(c & Ic & R)|Q]]; [auto| |auto].
  right. left. exact (rc_child Ee Ic R).
Qed.

Theorem surface_ok fuel : forall rs st st', incl rs (rules G) -> Inv [] (tys st) -> surface_from G E fuel rs st = WOk st' ->
  Inv [] (tys st') /\ ext (tys st) (tys st') /\ (terr st = true -> terr st' = true)
  /\ forall rl rl', In rl rs -> find_rule G (rname rl) = Some rl' -> known_ty (tys st') (rexpr rl').
Proof.
  induction rs as [|rl rs IH]; intros st st' SUB HI H; cbn [surface_from] in H.
  - injection H as <-. split; [exact HI|]. split; [apply ext_refl|]. split; [auto|]. intros rl rl' [].
  - apply wbind_ok in H. destruct H as ([t st1] & E1 & H). cbn [snd] in H.
    destruct (srule_ok (@sexpr_ok fuel) ltac:(constructor) HI E1) as [N K]. specialize (N eq_refl).
    destruct (K N) as (I1 & X1 & TY & M1 & _ & rl1 & F1 & [[]|R1]).
    destruct (IH _ _ ltac:(intros x Hx; apply SUB; right; exact Hx) I1 H) as (I2 & X2 & M2 & KN).
    split; [exact I2|]. split; [exact (ext_trans X1 X2)|]. split; [auto|]. intros rl' rl2 [<-|I3] F2; [|exact (KN _ _ I3 F2)].
    assert (rl2 = rl1) by congruence. subst rl2. apply (ex_known X2). exists t. auto.
Qed.

(** ---------------- once typed, only the roots of rules may change ---------------- *)
Definition is_root (j : nat) : Prop := exists rl, In rl (rules G) /\ rexpr rl = j.
Definition fixed (T T' : list ity) : Prop := forall j v, ~ is_root j -> nth_error T j = Some v -> v <> IInfer -> nth_error T' j = Some v.
Definition vis_fixed (ve : list string -> nat -> tst -> wres (ity * tst)) : Prop := forall path i st t st', path_ok path ->
  here path (tys st) i -> Inv path (tys st) -> ve path i st = WOk (t, st') -> fixed (tys st) (tys st').
Lemma fixed_refl T : fixed T T. Proof. intros j v _ H _. exact H. Qed.
Lemma fixed_trans T1 T2 T3 : fixed T1 T2 -> fixed T2 T3 -> fixed T1 T3.
Proof. intros A B j v N H K. exact (B j v N (A j v N H K) K). Qed.
Lemma srule_fixed ve : vis_ok' ve -> vis_fixed ve -> forall path id st t st', path_ok path -> Inv path (tys st) ->
  srule G ve path id st = WOk (t, st') -> fixed (tys st) (tys st').
Proof.
  intros V VF path id st t st' PO HI H. unfold srule in H.
  assert (EF : exists rl, find_rule G id = Some rl) by (destruct (find_rule G id); [eauto|discriminate]). destruct EF as (rl & F). rewrite F in H.
  apply wbind_ok in H. destruct H as (u & Eu & H). apply tget_ok in Eu.
  destruct u as [|r| | |u]; try (apply WOk_inj', pair_inj in H; destruct H as [<- <-]; apply fixed_refl).
  destruct (existsb (String.eqb id) path) eqn:EX; [apply WOk_inj', pair_inj in H; destruct H as [<- <-]; apply fixed_refl|].
  apply wbind_ok in H. destruct H as ([t1 st1] & E1 & H). cbn [fst snd] in H. apply wbind_ok in H. destruct H as (t2 & E2 & H).
  apply WOk_inj', pair_inj in H. destruct H as [<- <-].
  assert (PO' : path_ok (id :: path)) by (constructor; [exists rl; exact F|exact PO]).
  destruct (find_rule_name F) as [RN RI]. assert (OW : own (rexpr rl) = id) by (rewrite (ow_root HO RI); exact RN).
  destruct (V (id :: path) (rexpr rl) st t1 st1 PO' OW (Inv_weaken id HI) E1) as (_ & _ & R1 & _).
  pose proof (VF (id :: path) (rexpr rl) st t1 st1 PO' OW (Inv_weaken id HI) E1) as F1. refine (fixed_trans F1 _).
  unfold tset. cbn [tys]. intros j v N Ej _. rewrite nth_update by (apply nth_error_Some; congruence).
  destruct (Nat.eqb_spec j (rexpr rl)) as [->|D]; [|exact Ej]. destruct N. exists rl. auto.
Qed.
Lemma sexprs_fixed ve path i e : vis_ok' ve -> vis_fixed ve -> path_ok path -> expr_of G i = Some e -> forall l st ts st', incl l (children e) ->
  here path (tys st) i -> Inv path (tys st) -> sexprs (ve path) l st = WOk (ts, st') -> fixed (tys st) (tys st').
Proof.
  intros V VF PO Ee. induction l as [|c l IH]; intros st ts st' SUB HH HI H; cbn [sexprs] in H.
  - apply WOk_inj', pair_inj in H. destruct H as [<- <-]. apply fixed_refl.
  - apply wbind_ok in H. destruct H as ([t st1] & E1 & H). apply wbind_ok in H. destruct H as ([ts2 st2] & E2 & H). cbn [fst snd] in *.
    apply WOk_inj', pair_inj in H. destruct H as [<- <-]. assert (IC : In c (children e)) by (apply SUB; left; reflexivity).
    pose proof (ow_child HO Ee IC) as OC.
    destruct (V _ _ _ _ _ PO (here_ext (ext_refl _) OC HH) HI E1) as (I1 & X1 & _).
    refine (fixed_trans (VF _ _ _ _ _ PO (here_ext (ext_refl _) OC HH) HI E1) _).
    exact (IH _ _ _ ltac:(intros x Hx; apply SUB; right; exact Hx) (here_ext X1 eq_refl HH) I1 E2).
Qed.
Theorem sexpr_fixed fuel : vis_fixed (sexpr G E fuel).
Proof.
  induction fuel as [|k IH]; intros path i st t st' PO HH HI H; [discriminate|]. pose proof (@sexpr_ok k) as V.
  cbn [sexpr] in H. apply wbind_ok in H. destruct H as (u & Eu & H). apply tget_ok in Eu.
  destruct u as [|r| | |u]; try (apply WOk_inj', pair_inj in H; destruct H as [<- <-]; apply fixed_refl).
  destruct (expr_of G i) as [e|] eqn:Ee; [|discriminate]. apply wbind_ok in H. destruct H as ([t1 st1] & E1 & H). cbn [fst snd] in H.
  apply wbind_ok in H. destruct H as (t2 & E2 & H). apply WOk_inj', pair_inj in H. destruct H as [<- <-].
  assert (N1 : t1 <> IInfer) by (intros ->; discriminate).
  destruct (swalk_ok V PO HH HI Ee E1 N1) as (_ & _ & _ & _ & FR). pose proof (walk_leaves HH Ee FR) as SAME. rewrite Eu in SAME.
  assert (W : fixed (tys st) (tys st1)).
  { assert (CHILD : forall j u, In j (children e) -> wbind (sexpr G E k path j st) (fun q => WOk (u (length (tys (snd q))), snd q)) = WOk (t1, st1) -> fixed (tys st) (tys st1)).
    { intros j u IC K. apply wbind_ok in K. destruct K as ([tc sc] & Ec & K). cbn [snd] in K. apply WOk_inj', pair_inj in K. destruct K as [_ <-].
      exact (IH _ _ _ _ _ PO (here_ext (ext_refl _) (ow_child HO Ee IC) HH) HI Ec). }
    destruct e as [lit| |cls|id|p|l|l|j|j|j|j|j|j b f|j u|j|j]; cbn [swalk] in E1; try (apply WOk_inj', pair_inj in E1; destruct E1 as [_ <-]; apply fixed_refl).
    - exact (srule_fixed V IH PO HI E1).
    - apply wbind_ok in E1. destruct E1 as ([ts sc] & Es & E1). cbn [snd] in E1. apply WOk_inj', pair_inj in E1. destruct E1 as [_ <-].
      exact (sexprs_fixed V IH PO Ee (incl_refl _) HH HI Es).
    - apply wbind_ok in E1. destruct E1 as ([ts sc] & Es & E1). cbn [fst snd] in E1. apply wbind_ok in E1. destruct E1 as (r & Er & E1). apply WOk_inj' in E1.
      pose proof (sexprs_fixed V IH PO Ee (incl_refl _) HH HI Es) as F. destruct r as [v|]; apply pair_inj in E1; destruct E1 as [_ <-]; exact F.
    - exact (CHILD j (fun _ => IRegular (TList j)) (or_introl eq_refl) E1).
    - exact (CHILD j (fun _ => IRegular (TList j)) (or_introl eq_refl) E1).
    - exact (CHILD j (fun _ => IRegular (TOptional j)) (or_introl eq_refl) E1).
    - exact (CHILD j (fun n => IRegular (TTuple [n - 1; j])) (or_introl eq_refl) E1).
    - exact (CHILD j (fun _ => IRegular (TRust (range_ty E))) (or_introl eq_refl) E1). }
  refine (fixed_trans W _). unfold tset. cbn [tys]. intros j v N Ej Nv. rewrite nth_update by (apply nth_error_Some; congruence).
  destruct (Nat.eqb_spec j i) as [->|D]; [congruence|exact Ej].
Qed.

(** ---------------- local typing: how the type of an expression follows from its children ---------------- *)
Definition typed_as (T : list ity) (c : nat) (t : ity) : Prop := settledb t = true \/ ~ is_root c -> nth_error T c = Some t.
Definition local (R : nat -> ity -> Prop) (path : list string) (T : list ity) (e : expr) (t : ity) : Prop :=
  match e with
  | EStr _ | ENot _ | EAnd _ => t = IInvisible
  | EAny | EClass _ => t = IRegular TAtom
  | EAct _ b f => t = action_type E b f
  | EAsc _ u => t = u
  | EExt _ => t = IExternal
  | ERange c => known_ty T c /\ t = IRegular (TRust (range_ty E))
  | EStar c | EPlus c => known_ty T c /\ reduce_unary T c (IRegular (TList c)) = WOk t
  | EOpt c => known_ty T c /\ reduce_unary T c (IRegular (TOptional c)) = WOk t
  | ESpan c => known_ty T c /\ reduce_tuple T [length T - 1; c] = WOk t
  | ESeq l => Forall (known_ty T) l /\ reduce_tuple T l = WOk t
  | EAlt l => Forall (known_ty T) l /\ (t = IInvisible \/ exists fuel ts, Forall2 (typed_as T) l ts /\ Forall2 R l ts /\ Forall (tyok path T) ts /\ reduce_sum T fuel ts = WOk (Some t))
  | ENT id => exists rl, find_rule G id = Some rl /\ ((In id path /\ t = rec_type path id) \/ nth_error T (rexpr rl) = Some t)
  end.
Definition visits (e : expr) : list nat :=
  match e with
  | ESeq l | EAlt l => l
  | EStar i | EPlus i | EOpt i | ESpan i | ERange i => [i]
  | _ => []
  end.
Lemma visits_children e : incl (visits e) (children e).
Proof. destruct e; cbn; intros x Hx; auto; destruct Hx. Qed.

(** Reducing a stored type does nothing. *)
Lemma reduce_stored path T t : Inv path T -> tyok path T t -> reduce T t = WOk t.
Proof.
  intros HI TY. destruct t as [|r| | |[| |j|j|l|s]]; cbn [reduce tyok] in *; try reflexivity; try contradiction.
  - destruct TY as (u & Eu & Su & NI). unfold reduce_unary. rewrite (tget_some Eu). cbn. destruct u; cbn in Su; try discriminate; try congruence; reflexivity.
  - destruct TY as (u & Eu & Su & NI). unfold reduce_unary. rewrite (tget_some Eu). cbn. destruct u; cbn in Su; try discriminate; try congruence; reflexivity.
  - destruct TY as [L F]. rewrite (reduce_tuple_spec (Inv_flat HI)).
    + assert (EC : flat_map (contrib T) l = l).
      { clear L. induction F as [|j l (u & Eu & V) F IH]; [reflexivity|]. cbn [flat_map]. rewrite IH. unfold contrib. rewrite Eu.
        destruct u as [| | | |[]]; cbn in V; try discriminate; reflexivity. }
      rewrite EC. destruct l as [|a [|b l]]; cbn in L; try lia. reflexivity.
    + intros ->. cbn in L. lia.
    + eapply Forall_impl; [|exact F]. intros j (u & Eu & V). destruct (value_typed V) as (A & B & _). exists u. auto.
Qed.

Section Preserve.
Variable P : list string -> list ity -> Prop.
Variable Q : list string -> nat -> Prop.
Variable R : list string -> nat -> ity -> Prop.
Hypothesis P_R : forall path T c t, P path T -> Q path c -> nth_error T c = Some t -> t <> IInfer -> R path c t.
Hypothesis Q_child : forall path i e j, expr_of G i = Some e -> In j (visits e) -> Q path i -> Q path j.
Hypothesis Q_call : forall path T i id rl, expr_of G i = Some (ENT id) -> find_rule G id = Some rl -> ~ In id path -> here path T i ->
  nth_error T (rexpr rl) = Some IInfer -> Q path i -> Q (id :: path) (rexpr rl).
Hypothesis P_set : forall path i e T t, Inv path T -> here path T i -> Q path i -> expr_of G i = Some e -> nth_error T i = Some IInfer ->
  tyok path T t -> local (R path) path T e t -> P path T -> P path (update T i t).
Hypothesis P_enter : forall path id rl T, Inv path T -> find_rule G id = Some rl -> ~ In id path -> nth_error T (rexpr rl) = Some IInfer ->
  Q (id :: path) (rexpr rl) -> P path T -> P (id :: path) T.
Hypothesis P_leave : forall path id rl T t1 t2, Inv path T -> find_rule G id = Some rl -> ~ In id path -> nth_error T (rexpr rl) = Some t1 -> t1 <> IInfer ->
  Q (id :: path) (rexpr rl) -> reduce_rec_entry_point G T id t1 = WOk t2 -> tyok path T t2 -> P (id :: path) T -> P path (update T (rexpr rl) t2).

Definition vis_pres (ve : list string -> nat -> tst -> wres (ity * tst)) : Prop := forall path i st t st', path_ok path ->
  here path (tys st) i -> Inv path (tys st) -> Q path i -> ve path i st = WOk (t, st') -> P path (tys st) -> P path (tys st').

Lemma srule_pres ve : vis_ok' ve -> vis_pres ve -> forall path id st t st', path_ok path -> Inv path (tys st) ->
  (forall rl, find_rule G id = Some rl -> ~ In id path -> nth_error (tys st) (rexpr rl) = Some IInfer -> Q (id :: path) (rexpr rl)) ->
  srule G ve path id st = WOk (t, st') -> t <> IInfer -> P path (tys st) -> P path (tys st').
Proof.
  intros V VP path id st t st' PO HI HQ H NI HP. unfold srule in H.
  assert (EF : exists rl, find_rule G id = Some rl) by (destruct (find_rule G id); [eauto|discriminate]). destruct EF as (rl & F). rewrite F in H.
  apply wbind_ok in H. destruct H as (u & Eu & H). apply tget_ok in Eu.
  destruct u as [|r| | |u]; try (apply WOk_inj', pair_inj in H; destruct H as [<- <-]; exact HP).
  destruct (existsb (String.eqb id) path) eqn:EX; [apply WOk_inj', pair_inj in H; destruct H as [<- <-]; exact HP|].
  assert (NP : ~ In id path). { intros NN. rewrite <- not_true_iff_false in EX. apply EX, existsb_exists. exists id. split; [exact NN|apply String.eqb_refl]. }
  apply wbind_ok in H. destruct H as ([t1 st1] & E1 & H). cbn [fst snd] in H. apply wbind_ok in H. destruct H as (t2 & E2 & H).
  apply WOk_inj', pair_inj in H. destruct H as [<- <-].
  assert (PO' : path_ok (id :: path)) by (constructor; [exists rl; exact F|exact PO]).
  destruct (find_rule_name F) as [RN RI]. assert (OW : own (rexpr rl) = id) by (rewrite (ow_root HO RI); exact RN).
  specialize (HQ rl F NP Eu).
  destruct (V (id :: path) (rexpr rl) st t1 st1 PO' OW (Inv_weaken id HI) E1) as (I1 & X1 & R1 & N1 & M1 & FR1).
  pose proof (VP (id :: path) (rexpr rl) st t1 st1 PO' OW (Inv_weaken id HI) HQ E1 (P_enter HI F NP Eu HQ HP)) as P1.
  assert (K1 : known_ty (tys st1) (rexpr rl)) by (exists t1; auto). pose proof (Inv_leave F K1 I1) as I1'.
  unfold tset. cbn [tys]. refine (P_leave I1' F NP R1 N1 HQ E2 _ P1). pose proof (iv_ty I1' R1 N1) as TY.
  destruct t1 as [|r| | |t1]; try (cbn [reduce_rec_entry_point] in E2; injection E2 as <-; exact TY).
  cbn [reduce_rec_entry_point] in E2. apply wbind_ok in E2. destruct E2 as (e & Ee & E2). destruct (e =? id)%string; [|injection E2 as <-; exact TY].
  destruct (@reduce_rec_ok path (tys st1) r t2 I1' TY E2) as (R2 & T2 & P2). destruct T2 as [->|T2]; [congruence|exact T2].
Qed.

Lemma sexprs_pres ve path i e : vis_ok' ve -> vis_fixed ve -> vis_pres ve -> path_ok path -> expr_of G i = Some e -> forall l st ts st', incl l (visits e) -> Q path i ->
  here path (tys st) i -> Inv path (tys st) -> sexprs (ve path) l st = WOk (ts, st') ->
  P path (tys st) ->
  P path (tys st') /\ Forall2 (typed_as (tys st')) l ts /\ Forall2 (R path) l ts.
Proof.
  intros V VF VP PO Ee. induction l as [|c l IH]; intros st ts st' SUB HQ HH HI H HP; cbn [sexprs] in H.
  - apply WOk_inj', pair_inj in H. destruct H as [<- <-]. split; [auto|split; constructor].
  - apply wbind_ok in H. destruct H as ([t st1] & E1 & H). apply wbind_ok in H. destruct H as ([ts2 st2] & E2 & H). cbn [fst snd] in *.
    apply WOk_inj', pair_inj in H. destruct H as [<- <-]. assert (IV : In c (visits e)) by (apply SUB; left; reflexivity).
    pose proof (visits_children IV) as IC. pose proof (ow_child HO Ee IC) as OC.
    destruct (V _ _ _ _ _ PO (here_ext (ext_refl _) OC HH) HI E1) as (I1 & X1 & R1 & N1 & M1 & F1).
    pose proof (VP _ _ _ _ _ PO (here_ext (ext_refl _) OC HH) HI (Q_child Ee IV HQ) E1 HP) as P1.
    assert (SUB' : incl l (visits e)) by (intros x Hx; apply SUB; right; exact Hx).
    destruct (IH _ _ _ SUB' HQ (here_ext X1 eq_refl HH) I1 E2 P1) as (P2 & F2 & F3).
    destruct (sexprs_ok V PO Ee (fun x Hx => visits_children (SUB' x Hx)) (here_ext X1 eq_refl HH) I1 E2) as (_ & X2 & _).
    pose proof (sexprs_fixed V VF PO Ee (fun x Hx => visits_children (SUB' x Hx)) (here_ext X1 eq_refl HH) I1 E2) as FX.
    split; [auto|]. split; constructor; [|exact F2| |exact F3]; [intros [St|NR]; [exact (ex_settled X2 R1 St)|exact (FX c t NR R1 N1)]|].
    exact (P_R P1 (Q_child Ee IV HQ) R1 N1).
Qed.

Theorem sexpr_pres fuel : vis_pres (sexpr G E fuel).
Proof.
  induction fuel as [|k IH]; intros path i st t st' PO HH HI HQ H HP; [discriminate|]. pose proof (@sexpr_ok k) as V.
  cbn [sexpr] in H. apply wbind_ok in H. destruct H as (u & Eu & H). apply tget_ok in Eu.
  destruct u as [|r| | |u]; try (apply WOk_inj', pair_inj in H; destruct H as [<- <-]; exact HP).
  destruct (expr_of G i) as [e|] eqn:Ee; [|discriminate]. apply wbind_ok in H. destruct H as ([t1 st1] & E1 & H). cbn [fst snd] in H.
  apply wbind_ok in H. destruct H as (t2 & E2 & H). apply WOk_inj', pair_inj in H. destruct H as [<- <-].
  assert (N1 : t1 <> IInfer) by (intros ->; discriminate).
  destruct (swalk_ok V PO HH HI Ee E1 N1) as (I1 & X1 & R1 & M1 & FR). pose proof (reduce_ok I1 R1 E2) as TY.
  pose proof (walk_leaves HH Ee FR) as SAME. rewrite Eu in SAME. unfold tset. cbn [tys].
  assert (HH1 : here path (tys st1) i) by exact (here_ext X1 eq_refl HH).
  assert (FIN : P path (tys st1) -> local (R path) path (tys st1) e t2 -> P path (update (tys st1) i t2)).
  { intros P1 LO. exact (P_set I1 HH1 HQ Ee SAME TY LO P1). }
  assert (STO : tyok path (tys st1) t1 -> t2 = t1). { intros K. rewrite (reduce_stored I1 K) in E2. congruence. }
  assert (CHILD : forall j u, In j (visits e) -> wbind (sexpr G E k path j st) (fun q => WOk (u (length (tys (snd q))), snd q)) = WOk (t1, st1) ->
    P path (tys st1) /\ known_ty (tys st1) j /\ t1 = u (length (tys st1))).
  { intros j u IV K. apply wbind_ok in K. destruct K as ([tc sc] & Ec & K). cbn [snd] in K. apply WOk_inj', pair_inj in K. destruct K as [<- <-].
    pose proof (ow_child HO Ee (visits_children IV)) as OC.
    destruct (V _ _ _ _ _ PO (here_ext (ext_refl _) OC HH) HI Ec) as (_ & _ & Rc & Nc & _).
    split; [exact (IH _ _ _ _ _ PO (here_ext (ext_refl _) OC HH) HI (Q_child Ee IV HQ) Ec HP)|]. split; [exists tc; auto|reflexivity]. }
  destruct e as [lit| |cls|id|p|l|l|j|j|j|j|j|j b f|j u|j|j]; cbn [swalk] in E1.
  - apply WOk_inj', pair_inj in E1. destruct E1 as [<- <-]. apply FIN; [exact HP|]. exact (STO I).
  - apply WOk_inj', pair_inj in E1. destruct E1 as [<- <-]. apply FIN; [exact HP|]. exact (STO I).
  - apply WOk_inj', pair_inj in E1. destruct E1 as [<- <-]. apply FIN; [exact HP|]. exact (STO I).
  - assert (HQ' : forall rl, find_rule G id = Some rl -> ~ In id path -> nth_error (tys st) (rexpr rl) = Some IInfer -> Q (id :: path) (rexpr rl))
      by (intros rl F NP UN; exact (Q_call Ee F NP HH UN HQ)).
    destruct (srule_ok V PO HI E1) as [_ K]. destruct (K N1) as (_ & _ & TY1 & _ & _ & rl & F & D). apply FIN.
    + exact (srule_pres V IH PO HI HQ' E1 N1 HP).
    + rewrite (STO TY1). exists rl. split; [exact F|]. clear K. unfold srule in E1. rewrite F in E1. apply wbind_ok in E1. destruct E1 as (v & Ev & E1).
      apply tget_ok in Ev. destruct v as [|r| | |v]; try (apply WOk_inj', pair_inj in E1; destruct E1 as [<- <-]; right; exact Ev).
      destruct (existsb (String.eqb id) path) eqn:EX.
      * apply WOk_inj', pair_inj in E1. destruct E1 as [<- <-]. left. split; [|reflexivity]. apply existsb_exists in EX. destruct EX as (x & Ix & Ex).
        apply String.eqb_eq in Ex. subst x. exact Ix.
      * right. destruct D as [D|D]; [|exact D]. exfalso. rewrite <- not_true_iff_false in EX. apply EX, existsb_exists. exists id. split; [exact D|apply String.eqb_refl].
  - apply WOk_inj', pair_inj in E1. destruct E1 as [<- <-]. apply FIN; [exact HP|]. exact (STO I).
  - apply wbind_ok in E1. destruct E1 as ([ts sc] & Es & E1). cbn [snd] in E1. apply WOk_inj', pair_inj in E1. destruct E1 as [<- <-].
    destruct (sexprs_pres V (@sexpr_fixed k) IH PO Ee (incl_refl _) HQ HH HI Es HP) as (P1 & F2 & F3). destruct (sexprs_ok V PO Ee (incl_refl _) HH HI Es) as (_ & _ & KN & _).
    apply FIN; [auto|]. split; [exact KN|exact E2].
  - apply wbind_ok in E1. destruct E1 as ([ts sc] & Es & E1). cbn [fst snd] in E1. apply wbind_ok in E1. destruct E1 as (r & Er & E1). apply WOk_inj' in E1.
    destruct (sexprs_pres V (@sexpr_fixed k) IH PO Ee (incl_refl _) HQ HH HI Es HP) as (P1 & F2 & F3). destruct (sexprs_ok V PO Ee (incl_refl _) HH HI Es) as (_ & _ & KN & TS & _).
    destruct r as [v|]; apply pair_inj in E1; destruct E1 as [<- <-].
    + apply FIN; [auto|]. split; [exact KN|]. right. exists (cmp_fuel E), ts. rewrite (STO (reduce_sum_ok TS Er)). auto.
    + apply FIN; [auto|]. split; [exact KN|]. left. exact (STO I).
  - destruct (CHILD j (fun _ => IRegular (TList j)) (or_introl eq_refl) E1) as (P1 & KN & ->). apply FIN; [exact P1|]. split; [exact KN|exact E2].
  - destruct (CHILD j (fun _ => IRegular (TList j)) (or_introl eq_refl) E1) as (P1 & KN & ->). apply FIN; [exact P1|]. split; [exact KN|exact E2].
  - destruct (CHILD j (fun _ => IRegular (TOptional j)) (or_introl eq_refl) E1) as (P1 & KN & ->). apply FIN; [exact P1|]. split; [exact KN|exact E2].
  - apply WOk_inj', pair_inj in E1. destruct E1 as [<- <-]. apply FIN; [exact HP|]. exact (STO I).
  - apply WOk_inj', pair_inj in E1. destruct E1 as [<- <-]. apply FIN; [exact HP|]. exact (STO I).
  - apply WOk_inj', pair_inj in E1. destruct E1 as [<- <-]. apply FIN; [exact HP|]. apply STO, action_type_ok.
  - apply WOk_inj', pair_inj in E1. destruct E1 as [<- <-]. apply FIN; [exact HP|]. apply STO. destruct (tg_asc HG Ee) as [->|[->|(s & ->)]]; exact I.
  - destruct (CHILD j (fun n => IRegular (TTuple [n - 1; j])) (or_introl eq_refl) E1) as (P1 & KN & ->). apply FIN; [exact P1|]. split; [exact KN|exact E2].
  - destruct (CHILD j (fun _ => IRegular (TRust (range_ty E))) (or_introl eq_refl) E1) as (P1 & KN & ->). apply FIN; [exact P1|]. split; [exact KN|]. exact (STO I).
Qed.

Hypothesis Q_top : forall rl, In rl (rules G) -> Q [rname rl] (rexpr rl).
Theorem surface_pres fuel : forall rs st st', incl rs (rules G) -> Inv [] (tys st) -> surface_from G E fuel rs st = WOk st' -> P [] (tys st) -> P [] (tys st').
Proof.
  induction rs as [|rl rs IH]; intros st st' SUB HI H HP; cbn [surface_from] in H; [injection H as <-; exact HP|].
  apply wbind_ok in H. destruct H as ([t st1] & E1 & H). cbn [snd] in H.
  destruct (srule_ok (@sexpr_ok fuel) ltac:(constructor) HI E1) as [N K]. specialize (N eq_refl). destruct (K N) as (I1 & _).
  refine (IH _ _ _ I1 H _); [intros x Hx; apply SUB; right; exact Hx|].
  refine (srule_pres (@sexpr_ok fuel) (@sexpr_pres fuel) _ HI _ E1 N HP); [constructor|]. intros rl' F _ _.
  destruct (find_rule_name F) as [RN RI]. rewrite <- RN. exact (Q_top RI).
Qed.
End Preserve.
End Surface.
