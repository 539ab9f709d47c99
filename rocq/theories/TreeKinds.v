(** Specification: which expressions have a value, from the syntax trees alone.

    Oak's types, up to what matters for the presence and the number of values: an expression is invisible ([^]), of type
    [()], of a type known to Rust only ([KForeign]), of a Rust type named in the grammar ([KRust]), a tuple, or of another type.  [ret f]: the Rust function [f] of the grammar, with its return type if any. *)
From Verif Require Import Base Grammar FrontSpec TreeSpec.
Set Implicit Arguments. Unset Strict Implicit.
Open Scope nat_scope. Open Scope list_scope.

Inductive kind := KInv | KUnit | KForeign | KRust | KData | KTuple.
Definition voidb (k : kind) : bool := match k with KInv | KUnit => true | _ => false end.
Definition invb (k : kind) : bool := match k with KInv => true | _ => false end.
Definition foreignb (k : kind) : bool := match k with KForeign => true | _ => false end.
Definition rustb (k : kind) : bool := match k with KRust => true | _ => false end.
Definition datab (k : kind) : bool := match k with KData => true | _ => false end.
Definition tupleb (k : kind) : bool := match k with KTuple => true | _ => false end.
(** A sequence has the values of its operands that have one. *)
Definition seq_kind (ks : list kind) : kind :=
  if forallb invb ks then KInv else match filter (fun k => negb (voidb k)) ks with [] => KUnit | [k] => k | _ => KTuple end.
(** The branches of an accepted choice agree; foreign ones agree with all others, [^] and [()] agree and give [^]. *)
Definition alt_kind (ks : list kind) : kind :=
  if existsb tupleb ks then KTuple else if existsb datab ks then KData else if existsb rustb ks then KRust else if forallb foreignb ks then KForeign else if existsb invb ks then KInv else KUnit.
(** Repetitions and options: nothing of invisible expressions, a list or an option otherwise, even of [()]. *)
Definition rep_kind (k : kind) : kind := if invb k then KInv else KData.
Definition asc_kind (t : ity) : kind := match t with IInvisible => KInv | IRegular TUnit => KUnit | _ => KRust end.
(** A span, with the values of the operand. *)
Definition span_kind (k : kind) : kind := seq_kind [KRust; k].

Section Kinds.
Variable rs : list (string * tree).
(** Trees that only recognise, whatever the rules of [S] do but recognise; the rules that only recognise, even if they call
    each other. *)
Inductive bare_tree (S : string -> Prop) : tree -> Prop :=
| ba_str s : bare_tree S (XStr s)
| ba_not t : bare_tree S (XNot t)
| ba_and t : bare_tree S (XAnd t)
| ba_asc t : bare_tree S (XAsc t IInvisible)
| ba_call id t : rule_called rs [id] = Some t -> S id -> bare_tree S (XCall [id])
| ba_seq l : (forall t, In t l -> bare_tree S t) -> bare_tree S (XSeq l)
| ba_alt l : l <> [] -> (forall t, In t l -> bare_tree S t) -> bare_tree S (XAlt l)
| ba_star t : bare_tree S t -> bare_tree S (XStar t)
| ba_plus t : bare_tree S t -> bare_tree S (XPlus t)
| ba_opt t : bare_tree S t -> bare_tree S (XOpt t).
Definition bare (id : string) : Prop := exists S : string -> Prop, S id /\ forall n e, In (n, e) rs -> S n -> bare_tree S e.
Variable ret : string -> option (option string).
(** An action of the grammar with a return type, without, or a function from elsewhere. *)
Definition act_kind (p : list string) : kind :=
  match p with
  | [f] => match ret f with Some (Some _) => KRust | Some None => KUnit | None => KForeign end
  | _ => KForeign
  end.
Inductive tkind : tree -> kind -> Prop :=
| tk_str s : tkind (XStr s) KInv
| tk_any : tkind XAny KData
| tk_class a b c : tkind (XClass a b c) KData
| tk_call p t k : rule_called rs p = Some t -> tkind t k -> tkind (XCall p) k
| tk_bare id t : rule_called rs [id] = Some t -> bare id -> tkind (XCall [id]) KInv
| tk_ext p : rule_called rs p = None -> tkind (XCall p) KForeign
| tk_seq l ks : tkinds l ks -> tkind (XSeq l) (seq_kind ks)
| tk_alt l ks : tkinds l ks -> tkind (XAlt l) (alt_kind ks)
| tk_star t k : tkind t k -> tkind (XStar t) (rep_kind k)
| tk_plus t k : tkind t k -> tkind (XPlus t) (rep_kind k)
| tk_opt t k : tkind t k -> tkind (XOpt t) (rep_kind k)
| tk_not t : tkind (XNot t) KInv
| tk_and t : tkind (XAnd t) KInv
| tk_act t b p : tkind (XAct t b p) (act_kind p)
| tk_asc t ty : tkind (XAsc t ty) (asc_kind ty)
| tk_span t k : tkind t k -> tkind (XSpan t) (span_kind k)
| tk_range t : tkind (XRange t) KRust
with tkinds : list tree -> list kind -> Prop :=
| tk_nil : tkinds [] []
| tk_cons t l k ks : tkind t k -> tkinds l ks -> tkinds (t :: l) (k :: ks).
(** The kind of [t] depends on the kind of the rule [id]. *)
Inductive needs : tree -> string -> Prop :=
| nd_call id t : rule_called rs [id] = Some t -> needs (XCall [id]) id
| nd_seq l t id : In t l -> needs t id -> needs (XSeq l) id
| nd_alt l t id : In t l -> needs t id -> needs (XAlt l) id
| nd_star t id : needs t id -> needs (XStar t) id
| nd_plus t id : needs t id -> needs (XPlus t) id
| nd_opt t id : needs t id -> needs (XOpt t) id
| nd_span t id : needs t id -> needs (XSpan t) id.
(** The type of no rule depends on itself, except that a rule that only recognises may call itself, and but for rules that
    only recognise and on which the type of no other rule depends: recursion goes through actions, ascriptions, predicates
    or ranges, or is without values. *)
Definition settled_types : Prop := exists (rk : string -> nat) (apart : string -> bool), (forall id, apart id = true -> bare id) /\
  forall n e id, In (n, e) rs -> apart n = false -> needs e id -> (rk id < rk n /\ apart id = false) \/ (id = n /\ bare id).
(** The same, without rules that recognise through each other. *)
Definition settled_alone : Prop := exists rk : string -> nat, forall n e id, In (n, e) rs -> needs e id -> rk id < rk n \/ (id = n /\ bare id).
(** The expressions that are only recognised. *)
Definition void (t : tree) : Prop := exists k, tkind t k /\ voidb k = true.
End Kinds.
Scheme tkind_mind := Minimality for tkind Sort Prop with tkinds_mind := Minimality for tkinds Sort Prop.
Combined Scheme tkind_mutind from tkind_mind, tkinds_mind.

Lemma alone_settled rs : settled_alone rs -> settled_types rs.
Proof. intros (rk & H). exists rk, (fun _ => false). split; [discriminate|]. intros n e id I0 _ ND. destruct (H n e id I0 ND); auto. Qed.
Lemma called_rule rs id t : rule_called rs [id] = Some t -> In (id, t) rs.
Proof.
  unfold rule_called. destruct (find _ rs) as [q|] eqn:F; [|discriminate]. intros Q. injection Q as <-. destruct (find_some _ _ F) as [I0 EQ]. apply String.eqb_eq in EQ. subst id. destruct q; exact I0.
Qed.
Lemma bare_mono rs (S S' : string -> Prop) t : (forall id, S id -> S' id) -> bare_tree rs S t -> bare_tree rs S' t.
Proof. intros H B. induction B; econstructor; eauto. Qed.
Lemma bare_body rs n e : In (n, e) rs -> bare rs n -> bare_tree rs (bare rs) e.
Proof. intros I0 (S & S1 & S2). refine (bare_mono _ (S2 n e I0 S1)). intros id S3. exists S. auto. Qed.
Lemma all_inv ks : (forall k, In k ks -> k = KInv) -> seq_kind ks = KInv /\ (ks <> [] -> alt_kind ks = KInv).
Proof.
  intros H. assert (F : forallb invb ks = true) by (apply forallb_forall; intros k Ik; rewrite (H k Ik); reflexivity).
  assert (N : forall p, p KInv = false -> existsb p ks = false) by (intros p P; apply not_true_iff_false; intros X; apply existsb_exists in X; destruct X as (k & Ik & Pk); rewrite (H k Ik) in Pk; congruence).
  unfold seq_kind, alt_kind. rewrite F. split; [reflexivity|]. intros NE. rewrite !N by reflexivity. destruct ks as [|k ks]; [congruence|]. rewrite (H k (or_introl eq_refl)). reflexivity.
Qed.
Lemma bare_kind_only rs ret : (forall t k, tkind rs ret t k -> bare_tree rs (bare rs) t -> k = KInv) /\ (forall l ks, tkinds rs ret l ks -> (forall t, In t l -> bare_tree rs (bare rs) t) -> forall k, In k ks -> k = KInv).
Proof.
  apply tkind_mutind; try (intros; match goal with B : bare_tree _ _ _ |- _ => inversion B; subst end; reflexivity).
  - intros p t k R T IH B. inversion B as [| | | |id t' R' BI| | | | |]; subst. assert (t' = t) by congruence. subst t'. apply IH. exact (bare_body (called_rule R) BI).
  - intros p R B. inversion B; subst. congruence.
  - intros l ks T IH B. inversion B; subst. apply all_inv. apply IH. assumption.
  - intros l ks T IH B. inversion B; subst. apply all_inv; [apply IH; assumption|]. destruct T; [congruence|discriminate].
  - intros t k T IH B. inversion B; subst. rewrite IH by assumption. reflexivity.
  - intros t k T IH B. inversion B; subst. rewrite IH by assumption. reflexivity.
  - intros t k T IH B. inversion B; subst. rewrite IH by assumption. reflexivity.
  - intros _ k [].
  - intros t l k ks T IH _ IHl B k' [<-|I0]; [apply IH, B; left; reflexivity|]. apply IHl; [|exact I0]. intros t' I1. apply B. right. exact I1.
Qed.
Lemma bare_kind rs ret t : bare_tree rs (bare rs) t -> tkind rs ret t KInv.
Proof.
  assert (L : forall l, (forall t, In t l -> tkind rs ret t KInv) -> exists ks, tkinds rs ret l ks /\ (l <> [] -> ks <> []) /\ forall k, In k ks -> k = KInv).
  { induction l as [|t0 l IH]; intros H; [exists []; repeat split; [constructor|congruence|intros k []]|]. destruct IH as (ks & A & B & C); [intros t' I0; apply H; right; exact I0|].
    exists (KInv :: ks). repeat split; [constructor; [apply H; left; reflexivity|exact A]|discriminate|intros k [<-|I0]; auto]. }
  induction 1 as [s|t|t|t|id t R B|l _ IH|l NE _ IH|t _ IH|t _ IH|t _ IH]; try (constructor; fail).
  - exact (tk_bare _ R B).
  - destruct (L l IH) as (ks & A & _ & C). rewrite <- (proj1 (all_inv C)). constructor. exact A.
  - destruct (L l IH) as (ks & A & B & C). rewrite <- (proj2 (all_inv C) (B NE)). constructor. exact A.
  - exact (tk_star IH).
  - exact (tk_plus IH).
  - exact (tk_opt IH).
Qed.
Lemma tkind_det rs ret : (forall t k, tkind rs ret t k -> forall k', tkind rs ret t k' -> k = k') /\ (forall l ks, tkinds rs ret l ks -> forall ks', tkinds rs ret l ks' -> ks = ks').
Proof.
  apply tkind_mutind; intros; match goal with H : tkind _ _ _ ?k' |- _ = ?k' => inversion H; subst | H : tkinds _ _ _ ?k' |- _ = ?k' => inversion H; subst end; try reflexivity; try congruence;
    try match goal with A : rule_called _ _ = Some ?a, B : rule_called _ _ = Some ?b |- _ => assert (a = b) as -> by congruence end; auto; try (f_equal; auto; fail).
  - match goal with R : rule_called _ _ = Some ?t, T : tkind _ _ ?t ?k, B : bare _ _ |- _ => exact (proj1 (bare_kind_only rs ret) _ _ T (bare_body (called_rule R) B)) end.
  - match goal with R : rule_called _ _ = Some ?t, T : tkind _ _ ?t ?k, B : bare _ _ |- _ => symmetry; exact (proj1 (bare_kind_only rs ret) _ _ T (bare_body (called_rule R) B)) end.
Qed.
