(** Decision procedures for the conditions of C28, C46, C56 and C57 on a source (TreeKinds.v, KindTrees.v, TreeNames.v), sound;
    they do not look into character classes, so that they can be run on what the parser stores. *)
From Verif Require Import Base Grammar CharClass FrontSpec TreeSpec TreeWf TreeKinds KindTrees TreeNames.
Set Implicit Arguments. Unset Strict Implicit.
Open Scope string_scope. Open Scope nat_scope. Open Scope list_scope.

Fixpoint all_some (A : Type) (l : list (option A)) : option (list A) :=
  match l with [] => Some [] | Some a :: l' => match all_some l' with Some r => Some (a :: r) | None => None end | None :: _ => None end.
Definition omap (A B : Type) (f : A -> B) (o : option A) : option B := match o with Some a => Some (f a) | None => None end.

Section Checks.
Variable rs : list (string * tree).
Variable ret : string -> option (option string).
Definition memb (id : string) (l : list string) : bool := existsb (String.eqb id) l.
(** [S0]: rules that only recognise; [A]: those of them that recognise through each other. *)
Variables S0 A : list string.
Fixpoint bareb (fuel : nat) (t : tree) : bool :=
  match fuel with
  | 0 => false
  | S k =>
    match t with
    | XStr _ | XNot _ | XAnd _ | XAsc _ IInvisible => true
    | XCall [id] => match rule_called rs [id] with Some _ => memb id S0 | None => false end
    | XSeq l => forallb (bareb k) l
    | XAlt (t :: l) => forallb (bareb k) (t :: l)
    | XStar t | XPlus t | XOpt t => bareb k t
    | _ => false
    end
  end.
Lemma bareb_ok fuel : forall t, bareb fuel t = true -> bare_tree rs (fun id => memb id S0 = true) t.
Proof.
  induction fuel as [|k IH]; intros t H; [discriminate|].
  assert (L : forall l, forallb (bareb k) l = true -> forall t, In t l -> bare_tree rs (fun id => memb id S0 = true) t) by (intros l Q t0 I0; rewrite forallb_forall in Q; exact (IH _ (Q t0 I0))).
  destruct t as [s| |a b c|p|l|l|t|t|t|t|t|t b p|t ty|t|t]; cbn [bareb] in H; try discriminate H; try (constructor; apply IH; exact H); try constructor.
  - destruct p as [|id [|? ?]]; try discriminate H. destruct (rule_called rs [id]) as [t|] eqn:R; [|discriminate H]. exact (ba_call R H).
  - exact (L _ H).
  - destruct l; [discriminate H|discriminate].
  - destruct l as [|t l]; [discriminate H|]. exact (L _ H).
  - destruct ty; try discriminate H. constructor.
Qed.
Definition bare_check (fuel : nat) : bool := forallb (fun q => if memb (fst q) S0 then bareb fuel (snd q) else true) rs.
Lemma bare_check_ok fuel : bare_check fuel = true -> forall id, memb id S0 = true -> bare rs id.
Proof.
  intros H id M. exists (fun x => memb x S0 = true). split; [exact M|]. intros n e I0 Q. unfold bare_check in H. rewrite forallb_forall in H. specialize (H _ I0). cbn [fst snd] in H. rewrite Q in H. exact (bareb_ok H).
Qed.

Fixpoint kindb (fuel : nat) (t : tree) : option kind :=
  match fuel with
  | 0 => None
  | S k =>
    match t with
    | XStr _ | XNot _ | XAnd _ => Some KInv
    | XAny | XClass _ _ _ => Some KData
    | XRange _ => Some KRust
    | XSpan t => omap span_kind (kindb k t)
    | XCall p => match rule_called rs p with Some t => if match p with [id] => memb id S0 | _ => false end then Some KInv else kindb k t | None => Some KForeign end
    | XSeq l => omap seq_kind (all_some (map (kindb k) l))
    | XAlt l => omap alt_kind (all_some (map (kindb k) l))
    | XStar t | XPlus t | XOpt t => omap rep_kind (kindb k t)
    | XAct _ _ p => Some (act_kind ret p)
    | XAsc _ ty => Some (asc_kind ty)
    end
  end.
Hypothesis HS : forall id, memb id S0 = true -> bare rs id.
Lemma kindb_ok fuel : forall t k, kindb fuel t = Some k -> tkind rs ret t k.
Proof.
  induction fuel as [|n IH]; intros t k H; [discriminate|].
  assert (L : forall l ks, all_some (map (kindb n) l) = Some ks -> tkinds rs ret l ks).
  { induction l as [|t0 l IHl]; intros ks Q; cbn in Q; [injection Q as <-; constructor|]. destruct (kindb n t0) as [k0|] eqn:K; [|discriminate]. destruct (all_some (map (kindb n) l)) as [r|]; [|discriminate].
    injection Q as <-. constructor; [exact (IH _ _ K)|exact (IHl _ eq_refl)]. }
  assert (O : forall (X Y : Type) (f : X -> Y) o b, omap f o = Some b -> exists a, o = Some a /\ b = f a) by (intros X Y f [a|] b Q; [injection Q as <-; eauto|discriminate]).
  destruct t; cbn [kindb] in H; try (injection H as <-; constructor).
  - destruct (rule_called rs p) as [t|] eqn:R; [|injection H as <-; exact (tk_ext _ R)].
    destruct p as [|id [|? ?]]; try (exact (tk_call R (IH _ _ H))). destruct (memb id S0) eqn:M; [injection H as <-; exact (tk_bare _ R (HS M))|exact (tk_call R (IH _ _ H))].
  - destruct (O _ _ _ _ _ H) as (ks & Q & ->). constructor. exact (L _ _ Q).
  - destruct (O _ _ _ _ _ H) as (ks & Q & ->). constructor. exact (L _ _ Q).
  - destruct (O _ _ _ _ _ H) as (k0 & Q & ->). constructor. exact (IH _ _ Q).
  - destruct (O _ _ _ _ _ H) as (k0 & Q & ->). constructor. exact (IH _ _ Q).
  - destruct (O _ _ _ _ _ H) as (k0 & Q & ->). constructor. exact (IH _ _ Q).
  - destruct (O _ _ _ _ _ H) as (k0 & Q & ->). constructor. exact (IH _ _ Q).
Qed.
Definition void_check (fuel : nat) (t : tree) : bool := match kindb fuel t with Some k => voidb k | None => false end.
Lemma void_check_ok fuel t : void_check fuel t = true -> void rs ret t.
Proof. unfold void_check. destruct (kindb fuel t) as [k|] eqn:K; [|discriminate]. intros V. exists k. split; [exact (kindb_ok K)|exact V]. Qed.

(** All rules the type of [t] depends on. *)
Fixpoint needs_check (p : string -> bool) (fuel : nat) (t : tree) : bool :=
  match fuel with
  | 0 => false
  | S k =>
    match t with
    | XCall [id] => match rule_called rs [id] with Some _ => p id | None => true end
    | XSeq l | XAlt l => forallb (needs_check p k) l
    | XStar t | XPlus t | XOpt t | XSpan t => needs_check p k t
    | _ => true
    end
  end.
Lemma needs_check_ok p t id : needs rs t id -> forall fuel, needs_check p fuel t = true -> p id = true.
Proof.
  induction 1 as [id t R|l t id It N IH|l t id It N IH|t id N IH|t id N IH|t id N IH|t id N IH]; intros [|k] H; try discriminate H; cbn [needs_check] in H; try (exact (IH k H)).
  - rewrite R in H. exact H.
  - rewrite forallb_forall in H. exact (IH k (H t It)).
  - rewrite forallb_forall in H. exact (IH k (H t It)).
Qed.
(** A rank for the rules, calls of themselves apart. *)
Fixpoint height (fuel : nat) (n : string) (t : tree) : nat :=
  match fuel with
  | 0 => 0
  | S k =>
    match t with
    | XCall [id] => if String.eqb id n then 0 else match rule_called rs [id] with Some t => S (height k id t) | None => 0 end
    | XSeq l | XAlt l => fold_right (fun t m => Nat.max (height k n t) m) 0 l
    | XStar t | XPlus t | XOpt t | XSpan t => height k n t
    | _ => 0
    end
  end.
Definition rank (fuel : nat) (id : string) : nat := match rule_called rs [id] with Some t => height fuel id t | None => 0 end.
(** Everything in [t]. *)
Fixpoint all_check (q : tree -> bool) (fuel : nat) (t : tree) : bool :=
  match fuel with 0 => false | S k => q t && forallb (all_check q k) (operands t) end.
Lemma all_check_ok q t u : within t u -> forall fuel, all_check q fuel t = true -> q u = true.
Proof.
  induction 1 as [t|t u v Iu W IH]; intros [|k] H; try discriminate H; cbn [all_check] in H; apply andb_prop in H; destruct H as [H1 H2]; [exact H1|].
  rewrite forallb_forall in H2. exact (IH k (H2 u Iu)).
Qed.
Definition plain_check (bad : kind -> bool) (fuel : nat) (t : tree) : bool :=
  match t with
  | XAlt l => match all_some (map (kindb fuel) l) with Some ks => negb (existsb foreignb ks && existsb bad ks) | None => false end
  | _ => true
  end.
Definition no_alt (t : tree) : bool := match t with XAlt _ => false | _ => true end.
Fixpoint tidy_seq_check (f : bool -> tree -> bool) (v : tree -> bool) (b : bool) (l : list tree) : bool :=
  match l with [] => true | t :: l' => f b t && tidy_seq_check f v (b && v t) l' end.
Fixpoint tidy_alt_check (f : bool -> tree -> bool) (b : bool) (l : list tree) : bool :=
  match l with [] => true | [t] => f b t | t :: l' => f false t && tidy_alt_check f b l' end.
Fixpoint tidy_check (fuel : nat) (b : bool) (t : tree) : bool :=
  match fuel with
  | 0 => false
  | S k =>
    void_check k t ||
    match t with
    | XSeq l => tidy_seq_check (tidy_check k) (void_check k) b l
    | XAlt l => tidy_alt_check (tidy_check k) b l
    | XStar t | XPlus t | XOpt t => tidy_check k false t
    | XAct t _ _ => all_check no_alt k t || (b && tidy_check k true t)
    | XAsc t _ | XSpan t => tidy_check k b t
    | XNot _ | XAnd _ => false
    | _ => true
    end
  end.
Lemma tidy_check_ok fuel : forall b t, tidy_check fuel b t = true -> tidy (void rs ret) b t.
Proof.
  induction fuel as [|k IH]; intros b t H; [discriminate|]. cbn [tidy_check] in H. apply orb_prop in H. destruct H as [V|H]; [apply ti_void; exact (void_check_ok V)|].
  destruct t as [s| |a b0 c|p|l|l|t|t|t|t|t|t bx p|t ty|t|t]; try (apply ti_leaf; reflexivity).
  - apply ti_seq. clear - H IH HS. revert b H. induction l as [|t l IHl]; intros b H; [constructor|]. cbn [tidy_seq_check] in H. apply andb_prop in H. destruct H as [H1 H2].
    destruct (void_check k t) eqn:V; [|rewrite andb_false_r in H2; apply ts_cons; [exact (IH _ _ H1)|exact (IHl _ H2)]].
    rewrite andb_true_r in H2. apply ts_void; [exact (IH _ _ H1)|exact (void_check_ok V)|exact (IHl _ H2)].
  - apply ti_alt. clear - H IH HS. revert b H. induction l as [|t l IHl]; intros b H; [constructor|]. destruct l as [|u l]; [apply ta_last; exact (IH _ _ H)|].
    change (tidy_check k false t && tidy_alt_check (tidy_check k) b (u :: l) = true) in H. apply andb_prop in H. destruct H as [H1 H2]. apply ta_cons; [discriminate|exact (IH _ _ H1)|exact (IHl _ H2)].
  - apply ti_star. exact (IH _ _ H).
  - apply ti_plus. exact (IH _ _ H).
  - apply ti_opt. exact (IH _ _ H).
  - discriminate H.
  - discriminate H.
  - apply orb_prop in H. destruct H as [H|H]; [apply ti_act; intros l W; pose proof (all_check_ok W H) as Q; discriminate Q|].
    apply andb_prop in H. destruct H as [-> H]. apply ti_first. exact (IH _ _ H).
  - apply ti_asc. exact (IH _ _ H).
  - apply ti_span. exact (IH _ _ H).
  - apply ti_range.
Qed.
Definition below (fuel : nat) (n id : string) : bool := if String.eqb id n then memb id S0 else if memb id A then false else rank fuel id <? rank fuel n.
Definition source_check (bad : kind -> bool) (fuel : nat) : bool :=
  forallb (fun q => (if memb (fst q) A then true else needs_check (below fuel (fst q)) fuel (snd q)) && all_check (plain_check bad fuel) fuel (snd q) && tidy_check fuel true (snd q)) rs.
Hypothesis HA : forall id, memb id A = true -> memb id S0 = true.
Lemma source_check_bad bad fuel : source_check bad fuel = true ->
  settled_types rs /\ (forall l t t', part rs (XAlt l) -> In t l -> In t' l -> tkind rs ret t KForeign -> forall k, bad k = true -> ~ tkind rs ret t' k) /\
  forall n e, In (n, e) rs -> tidy (void rs ret) true e.
Proof.
  intros H. unfold source_check in H. rewrite forallb_forall in H.
  assert (K : forall n e, In (n, e) rs -> (memb n A = false -> needs_check (below fuel n) fuel e = true) /\ all_check (plain_check bad fuel) fuel e = true /\ tidy_check fuel true e = true).
  { intros n e I0. specialize (H (n, e) I0). cbn [fst snd] in H. apply andb_prop in H. destruct H as [H H3]. apply andb_prop in H. destruct H as [H1 H2]. split; [|auto]. intros Q. rewrite Q in H1. exact H1. }
  split; [|split].
  - exists (rank fuel), (fun id => memb id A). split; [intros id Q; exact (HS (HA Q))|]. intros n e id I0 Q N. destruct (K n e I0) as (K1 & _). pose proof (needs_check_ok N (K1 Q)) as R. unfold below in R.
    destruct (String.eqb_spec id n) as [->|_]; [right; split; [reflexivity|exact (HS R)]|]. left. destruct (memb id A); [discriminate R|]. split; [apply Nat.ltb_lt; exact R|reflexivity].
  - intros l t t' (n & e & I0 & W) It It' F k B D. destruct (K n e I0) as (_ & K2 & _). pose proof (all_check_ok W K2) as Q. cbn [plain_check] in Q.
    destruct (all_some (map (kindb fuel) l)) as [ks|] eqn:SK; [|discriminate Q]. apply negb_true_iff in Q.
    assert (X : forall t k, In t l -> tkind rs ret t k -> In k ks).
    { clear - SK HS. revert ks SK. induction l as [|u l IH]; intros ks SK t k I0 TK; [destruct I0|]. cbn in SK. destruct (kindb fuel u) as [k0|] eqn:K0; [|discriminate]. destruct (all_some (map (kindb fuel) l)) as [r|]; [|discriminate].
      injection SK as <-. destruct I0 as [<-|I0]; [left; exact (proj1 (tkind_det rs ret) _ _ (kindb_ok K0) _ TK)|right; exact (IH r eq_refl t k I0 TK)]. }
    assert (Q1 : existsb foreignb ks = true) by (apply existsb_exists; exists KForeign; split; [exact (X t KForeign It F)|reflexivity]).
    assert (Q2 : existsb bad ks = true) by (apply existsb_exists; exists k; split; [exact (X t' k It' D)|exact B]).
    rewrite Q1, Q2 in Q. discriminate Q.
  - intros n e I0. destruct (K n e I0) as (_ & _ & K3). exact (tidy_check_ok K3).
Qed.
Theorem source_check_plain fuel : source_check tupleb fuel = true -> settled_types rs /\ plain_choices rs ret /\ forall n e, In (n, e) rs -> tidy (void rs ret) true e.
Proof. intros H. destruct (source_check_bad H) as (SE & B & C). split; [exact SE|]. split; [|exact C]. intros l t t' P It It' F. exact (B l t t' P It It' F KTuple eq_refl). Qed.
Theorem source_check_clear fuel : source_check (fun k => tupleb k || datab k) fuel = true -> settled_types rs /\ clear_choices rs ret /\ forall n e, In (n, e) rs -> tidy (void rs ret) true e.
Proof. intros H. destruct (source_check_bad H) as (SE & B & C). split; [exact SE|]. split; [|exact C]. intros l t t' P It It' F. split; [exact (B l t t' P It It' F KTuple eq_refl)|exact (B l t t' P It It' F KData eq_refl)]. Qed.
End Checks.
(** Finding the rules that only recognise, and those of them that do so through each other. *)
Fixpoint bare_rules (rs : list (string * tree)) (fuel n : nat) (S0 : list string) : list string :=
  match n with
  | 0 => S0
  | S k => bare_rules rs fuel k (filter (fun id => match rule_called rs [id] with Some t => bareb rs S0 fuel t | None => false end) S0)
  end.
Fixpoint ordered (rs : list (string * tree)) (S0 : list string) (fuel n : nat) (L : list string) : list string :=
  match n with
  | 0 => L
  | S k => ordered rs S0 fuel k (map fst (filter (fun q => needs_check rs (fun id => if memb id L then true else if String.eqb id (fst q) then memb id S0 else false) fuel (snd q)) rs))
  end.
Definition recognised (rs : list (string * tree)) (fuel : nat) : list string := bare_rules rs fuel (length rs) (map fst rs).
Definition tangled (rs : list (string * tree)) (fuel : nat) : list string := let L := ordered rs (recognised rs fuel) fuel (length rs) [] in filter (fun id => negb (memb id L)) (map fst rs).
Definition whole_check (rs : list (string * tree)) (ret : string -> option (option string)) (S0 A : list string) (bad : kind -> bool) (fuel : nat) : bool :=
  bare_check rs S0 fuel && forallb (fun id => memb id S0) A && source_check rs ret S0 A bad fuel.
Theorem whole_check_clear rs ret S0 A fuel : whole_check rs ret S0 A (fun k => tupleb k || datab k) fuel = true -> settled_types rs /\ clear_choices rs ret /\ forall n e, In (n, e) rs -> tidy (void rs ret) true e.
Proof.
  intros H. apply andb_prop in H. destruct H as [H H3]. apply andb_prop in H. destruct H as [H1 H2]. refine (source_check_clear (bare_check_ok H1) _ H3).
  intros id M. apply existsb_exists in M. destruct M as (x & Ix & Q). apply String.eqb_eq in Q. subst x. rewrite forallb_forall in H2. exact (H2 id Ix).
Qed.

(** ---------------- character classes do not matter ---------------- *)
Fixpoint erase (t : tree) : tree :=
  match t with
  | XClass _ _ _ => XClass false [] false
  | XSeq l => XSeq (map erase l)
  | XAlt l => XAlt (map erase l)
  | XStar t => XStar (erase t) | XPlus t => XPlus (erase t) | XOpt t => XOpt (erase t) | XNot t => XNot (erase t) | XAnd t => XAnd (erase t)
  | XAct t b p => XAct (erase t) b p
  | XAsc t ty => XAsc (erase t) ty
  | XSpan t => XSpan (erase t) | XRange t => XRange (erase t)
  | t => t
  end.
Definition erase_rules (rs : list (string * tree)) : list (string * tree) := map (fun q => (fst q, erase (snd q))) rs.
Lemma called_erased rs p : rule_called (erase_rules rs) p = omap erase (rule_called rs p).
Proof.
  destruct p as [|id [|? ?]]; try reflexivity. unfold rule_called. induction rs as [|q l IH]; [reflexivity|]. cbn [erase_rules map find fst]. destruct (String.eqb (fst q) id); [reflexivity|exact IH].
Qed.
Section Erased.
Variable rs : list (string * tree).
Variable ret : string -> option (option string).
Variables S0 A : list string.
Local Notation es := (erase_rules rs).
Lemma map_same (X : Type) (f g : tree -> X) l : (forall t, f (erase t) = g t) -> map f (map erase l) = map g l.
Proof. intros H. rewrite map_map. apply map_ext. exact H. Qed.
Lemma forallb_same (f g : tree -> bool) l : (forall t, f (erase t) = g t) -> forallb f (map erase l) = forallb g l.
Proof. intros H. induction l as [|t l IH]; [reflexivity|]. cbn. rewrite H, IH. reflexivity. Qed.
Lemma kindb_erased k : forall t, kindb es ret S0 k (erase t) = kindb rs ret S0 k t.
Proof.
  induction k as [|k IH]; intros t; [reflexivity|]. destruct t; cbn [erase kindb]; try reflexivity; rewrite ?IH; try reflexivity.
  - rewrite called_erased. destruct (rule_called rs p); [|reflexivity]. cbn [omap]. rewrite IH. reflexivity.
  - rewrite (map_same (g := kindb rs ret S0 k)) by exact IH. reflexivity.
  - rewrite (map_same (g := kindb rs ret S0 k)) by exact IH. reflexivity.
Qed.
Lemma needs_erased p k : forall t, needs_check es p k (erase t) = needs_check rs p k t.
Proof.
  induction k as [|k IH]; intros t; [reflexivity|]. destruct t; cbn [erase needs_check]; try reflexivity; try apply IH; try (apply forallb_same; exact IH).
  destruct p0 as [|id [|? ?]]; try reflexivity. rewrite called_erased. destruct (rule_called rs [id]); reflexivity.
Qed.
Lemma height_erased k : forall n t, height es k n (erase t) = height rs k n t.
Proof.
  induction k as [|k IH]; intros n t; [reflexivity|]. destruct t; cbn [erase height]; try reflexivity; try apply IH.
  - destruct p as [|id [|? ?]]; try reflexivity. rewrite called_erased. destruct (String.eqb id n); [reflexivity|]. destruct (rule_called rs [id]); cbn [omap]; [rewrite IH|]; reflexivity.
  - induction l as [|t l IHl]; [reflexivity|]. cbn. rewrite IH, IHl. reflexivity.
  - induction l as [|t l IHl]; [reflexivity|]. cbn. rewrite IH, IHl. reflexivity.
Qed.
Lemma rank_erased k id : rank es k id = rank rs k id.
Proof. unfold rank. rewrite called_erased. destruct (rule_called rs [id]); [apply height_erased|reflexivity]. Qed.
Lemma below_erased k n id : below es S0 A k n id = below rs S0 A k n id.
Proof. unfold below. rewrite !rank_erased. reflexivity. Qed.
Lemma bareb_erased k : forall t, bareb es S0 k (erase t) = bareb rs S0 k t.
Proof.
  induction k as [|k IH]; intros t; [reflexivity|]. destruct t; cbn [erase bareb]; try reflexivity; try apply IH; try (apply forallb_same; exact IH).
  - destruct p as [|id [|? ?]]; try reflexivity. rewrite called_erased. destruct (rule_called rs [id]); reflexivity.
  - destruct l as [|t l]; [reflexivity|]. cbn [map]. exact (@forallb_same (bareb es S0 k) (bareb rs S0 k) (t :: l) IH).
Qed.
Lemma bare_erased k : bare_check es S0 k = bare_check rs S0 k.
Proof.
  unfold bare_check. assert (X : forall l, forallb (fun q => if memb (fst q) S0 then bareb es S0 k (snd q) else true) (erase_rules l) = forallb (fun q => if memb (fst q) S0 then bareb rs S0 k (snd q) else true) l); [|apply X].
  induction l as [|q l IH]; [reflexivity|]. cbn [erase_rules map forallb fst snd]. change (map (fun q => (fst q, erase (snd q))) l) with (erase_rules l). rewrite IH, bareb_erased. reflexivity.
Qed.
Lemma operands_erased t : operands (erase t) = map erase (operands t).
Proof. destruct t; reflexivity. Qed.
Lemma all_erased q q' k : (forall t, q (erase t) = q' t) -> forall t, all_check q k (erase t) = all_check q' k t.
Proof. intros H. induction k as [|k IH]; intros t; [reflexivity|]. cbn [all_check]. rewrite H, operands_erased, (forallb_same (g := all_check q' k)) by exact IH. reflexivity. Qed.
Lemma plain_erased bad k t : plain_check es ret S0 bad k (erase t) = plain_check rs ret S0 bad k t.
Proof. destruct t; try reflexivity. cbn [erase plain_check]. rewrite (map_same (g := kindb rs ret S0 k)) by (intros; apply kindb_erased). reflexivity. Qed.
Lemma tidy_erased k : forall b t, tidy_check es ret S0 k b (erase t) = tidy_check rs ret S0 k b t.
Proof.
  induction k as [|k IH]; intros b t; [reflexivity|].
  assert (V : forall t, void_check es ret S0 k (erase t) = void_check rs ret S0 k t) by (intros t0; unfold void_check; rewrite kindb_erased; reflexivity).
  cbn [tidy_check]. rewrite V. f_equal. destruct t; cbn [erase]; try reflexivity; try apply IH.
  - revert b. induction l as [|t l IHl]; intros b; [reflexivity|]. cbn [map tidy_seq_check]. rewrite IH, V, IHl. reflexivity.
  - induction l as [|t l IHl]; [reflexivity|]. destruct l as [|u l]; [apply IH|]. change (tidy_check es ret S0 k false (erase t) && tidy_alt_check (tidy_check es ret S0 k) b (map erase (u :: l)) = tidy_check rs ret S0 k false t && tidy_alt_check (tidy_check rs ret S0 k) b (u :: l)).
    rewrite IH, IHl. reflexivity.
  - rewrite IH, (all_erased (q' := no_alt)); [reflexivity|]. intros []; reflexivity.
Qed.
Theorem source_erased bad k : source_check es ret S0 A bad k = source_check rs ret S0 A bad k.
Proof.
  unfold source_check. assert (X : forall l, forallb (fun q => (if memb (fst q) A then true else needs_check es (below es S0 A k (fst q)) k (snd q)) && all_check (plain_check es ret S0 bad k) k (snd q) && tidy_check es ret S0 k true (snd q)) (erase_rules l) =
    forallb (fun q => (if memb (fst q) A then true else needs_check rs (below rs S0 A k (fst q)) k (snd q)) && all_check (plain_check rs ret S0 bad k) k (snd q) && tidy_check rs ret S0 k true (snd q)) l); [|apply X].
  intros l. induction l as [|q l IH]; [reflexivity|]. cbn [erase_rules map forallb fst snd]. change (map (fun q => (fst q, erase (snd q))) l) with (erase_rules l). rewrite IH. f_equal. f_equal; [f_equal|apply tidy_erased].
  - destruct (memb (fst q) A); [reflexivity|]. rewrite needs_erased. clear. revert k. intros k0. assert (X : forall k t, needs_check rs (below es S0 A k0 (fst q)) k t = needs_check rs (below rs S0 A k0 (fst q)) k t); [|apply X].
    induction k as [|k IH]; intros t; [reflexivity|]. assert (F : forall l, forallb (needs_check rs (below es S0 A k0 (fst q)) k) l = forallb (needs_check rs (below rs S0 A k0 (fst q)) k) l).
    { induction l as [|t0 l IHl]; [reflexivity|]. cbn [forallb]. rewrite IH, IHl. reflexivity. }
    destruct t; cbn [needs_check]; try reflexivity; try apply IH; try apply F. destruct p as [|id [|? ?]]; try reflexivity. rewrite below_erased. reflexivity.
  - apply all_erased. intros t. apply plain_erased.
Qed.
End Erased.

(** ---------------- reading the trees back ---------------- *)
Fixpoint decode (es : list expr) (fuel : nat) (i : nat) : option tree :=
  match fuel with
  | 0 => None
  | S k =>
    match nth_error es i with
    | Some (EStr s) => Some (XStr s)
    | Some EAny => Some XAny
    | Some (EClass _) => Some (XClass false [] false)
    | Some (ENT id) => Some (XCall [id])
    | Some (EExt p) => Some (XCall p)
    | Some (ESeq l) => omap XSeq (all_some (map (decode es k) l))
    | Some (EAlt l) => omap XAlt (all_some (map (decode es k) l))
    | Some (EStar j) => omap XStar (decode es k j)
    | Some (EPlus j) => omap XPlus (decode es k j)
    | Some (EOpt j) => omap XOpt (decode es k j)
    | Some (ENot j) => omap XNot (decode es k j)
    | Some (EAnd j) => omap XAnd (decode es k j)
    | Some (EAct j b (ActPath p)) => omap (fun t => XAct t b p) (decode es k j)
    | Some (EAct _ _ _) => None
    | Some (EAsc j ty) => omap (fun t => XAsc t ty) (decode es k j)
    | Some (ESpan j) => omap XSpan (decode es k j)
    | Some (ERange u) => match nth_error es u with Some (EAsc j _) => omap XRange (decode es k j) | _ => None end
    | None => None
    end
  end.

Lemma all_some_in (A : Type) (l : list (option A)) r : all_some l = Some r -> l = map Some r.
Proof.
  revert r. induction l as [|o l IH]; intros r H; cbn in H; [injection H as <-; reflexivity|]. destruct o as [a|]; [|discriminate]. destruct (all_some l) as [r0|]; [|discriminate].
  injection H as <-. cbn. rewrite (IH r0 eq_refl). reflexivity.
Qed.
Lemma omap_inv (A B : Type) (f : A -> B) o b : omap f o = Some b -> exists a, o = Some a /\ b = f a.
Proof. destruct o as [a|]; intros Q; [injection Q as <-; eauto|discriminate]. Qed.
Lemma decode_ok es : forall t k i u, tree_at es i t -> decode es k i = Some u -> u = erase t.
Proof.
  induction t as [s| |a b c|p|l F|l F|t IH|t IH|t IH|t IH|t IH|t b p IH|t ty IH|t IH|t IH] using tree_ind'; intros [|k] i u T H; try discriminate H; cbn [tree_at] in T; cbn [decode] in H.
  all: try solve [rewrite T in H; injection H as <-; reflexivity].
  all: try solve [destruct T as (j & N & T); rewrite N in H; destruct (omap_inv H) as (v & D & ->); rewrite (IH _ _ _ T D); reflexivity].
  all: try solve [destruct T as (js & N & T); rewrite N in H; destruct (omap_inv H) as (vs & D & ->); cbn [erase]; f_equal; clear - F T D;
    revert js vs T D; induction F as [|t l Q _ IHl]; intros [|j js] vs T D; try destruct T as [T1 T2]; try contradiction; cbn in D; [injection D as <-; reflexivity|];
    destruct (decode es k j) as [v|] eqn:E; [|discriminate]; destruct (all_some (map (decode es k) js)) as [r|] eqn:R; [|discriminate]; injection D as <-; cbn [map]; rewrite <- (Q _ _ _ T1 E), <- (IHl _ _ T2 R); reflexivity].
  destruct T as (w & j & N & N2 & T). rewrite N in H. rewrite N2 in H. destruct (omap_inv H) as (v & D & ->). rewrite (IH _ _ _ T D). reflexivity.
Qed.
Definition decode_rules (es : list expr) (fuel : nat) (rs : list rule) : option (list (string * tree)) :=
  all_some (map (fun r => omap (fun t => (rname r, t)) (decode es fuel (rexpr r))) rs).
Theorem decode_rules_ok es fuel rs l ds : rules_at es rs l -> decode_rules es fuel rs = Some ds -> ds = erase_rules l.
Proof.
  intros R. revert ds. unfold decode_rules. induction R as [|r q rs l [N T] _ IH]; intros ds H; cbn in H; [injection H as <-; reflexivity|].
  destruct (decode es fuel (rexpr r)) as [t|] eqn:D; cbn [omap] in H; [|discriminate]. destruct (all_some _) as [r0|]; [|discriminate]. injection H as <-.
  cbn. rewrite (IH r0 eq_refl), N, (decode_ok T D). reflexivity.
Qed.
