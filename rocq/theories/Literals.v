(** The literals of the arena are literals of the source. *)
From Coq Require Import Ascii Permutation.
From Verif Require Import Base Utf8 Grammar CharClass Analysis AnalysisFacts Front FrontFacts FrontSpec TreeFacts.
Set Implicit Arguments. Unset Strict Implicit.
Open Scope nat_scope. Open Scope list_scope.

(** The string literals of a token stream satisfy [P]. *)
Section P.
Variable P : text -> Prop.
Fixpoint tok_strs (k : tok) : Prop :=
  match k with
  | TStr s => P s
  | TGroup _ l => (fix all (l : list tok) : Prop := match l with [] => True | k :: l' => tok_strs k /\ all l' end) l
  | _ => True
  end.
Definition toks_strs (ts : list tok) : Prop := Forall tok_strs ts.
Lemma group_strs d l : tok_strs (TGroup d l) <-> toks_strs l.
Proof.
  cbn [tok_strs]. induction l as [|k l IH]; [split; [constructor|auto]|]. split.
  - intros [A B]. constructor; [exact A|]. apply IH, B.
  - intros H. inversion H; subst. split; [assumption|]. apply IH. assumption.
Qed.
(** The string literals of a tree. *)
Inductive tree_strs : tree -> Prop :=
| ts_str s : P s -> tree_strs (XStr s)
| ts_any : tree_strs XAny
| ts_class a b c : tree_strs (XClass a b c)
| ts_call p : tree_strs (XCall p)
| ts_seq l : Forall tree_strs l -> tree_strs (XSeq l)
| ts_alt l : Forall tree_strs l -> tree_strs (XAlt l)
| ts_star t : tree_strs t -> tree_strs (XStar t)
| ts_plus t : tree_strs t -> tree_strs (XPlus t)
| ts_opt t : tree_strs t -> tree_strs (XOpt t)
| ts_not t : tree_strs t -> tree_strs (XNot t)
| ts_and t : tree_strs t -> tree_strs (XAnd t)
| ts_act t b p : tree_strs t -> tree_strs (XAct t b p)
| ts_asc t ty : tree_strs t -> tree_strs (XAsc t ty)
| ts_span t : tree_strs t -> tree_strs (XSpan t)
| ts_range t : tree_strs t -> tree_strs (XRange t).

Section D.
Variable rust_type : list tok -> option (string * list tok).
Variable rust_item : list tok -> option (rust_item * list tok).
Scheme d_choice_mut := Minimality for d_choice Sort Prop
with d_branches_mut := Minimality for d_branches Sort Prop
with d_branch_mut := Minimality for d_branch Sort Prop
with d_spanned_mut := Minimality for d_spanned Sort Prop
with d_seq_mut := Minimality for d_seq Sort Prop
with d_items_mut := Minimality for d_items Sort Prop
with d_typed_mut := Minimality for d_typed Sort Prop
with d_prefixed_mut := Minimality for d_prefixed Sort Prop
with d_suffixed_mut := Minimality for d_suffixed Sort Prop
with d_atom_mut := Minimality for d_atom Sort Prop.
Lemma choice_strs ts t : d_choice rust_type ts t -> toks_strs ts -> tree_strs t.
Proof.
  intros H. pattern ts, t. unfold toks_strs. revert ts t H.
  apply (@d_choice_mut rust_type (fun ts t => Forall tok_strs ts -> tree_strs t) (fun ts l => Forall tok_strs ts -> Forall tree_strs l)
    (fun ts t => Forall tok_strs ts -> tree_strs t) (fun ts t => Forall tok_strs ts -> tree_strs t) (fun ts t => Forall tok_strs ts -> tree_strs t)
    (fun ts l => Forall tok_strs ts -> Forall tree_strs l) (fun ts t => Forall tok_strs ts -> tree_strs t) (fun ts t => Forall tok_strs ts -> tree_strs t)
    (fun ts t => Forall tok_strs ts -> tree_strs t) (fun ts t => Forall tok_strs ts -> tree_strs t));
  intros; repeat match goal with
    | H : Forall tok_strs (_ ++ _) |- _ => apply Forall_app in H; destruct H
    | H : Forall tok_strs (_ :: _) |- _ => inversion H; subst; clear H
    end; try (constructor; auto; fail); auto.
  all: try match goal with H : tok_strs (TGroup _ _) |- _ => apply group_strs in H; auto end.
Qed.
Lemma grammar_strs ts at_ bs : d_grammar rust_type rust_item ts at_ bs -> toks_strs ts -> Forall (fun q => tree_strs (snd q)) (block_rules bs).
Proof.
  induction 1 as [|u at_ v b ts l bs A B D IH]; intros H; [constructor|]. apply Forall_app in H. destruct H as [_ H]. apply Forall_app in H. destruct H as [Hv Hts].
  destruct B as [name j ts0 t C|name j1 u0 ty j2 ts0 t T C|u0 it r R]; cbn [block_rules flat_map app].
  - constructor; [|apply IH, Hts]. inversion Hv as [|? ? _ Hv1]; subst. inversion Hv1; subst. apply (choice_strs C). assumption.
  - constructor; [|apply IH, Hts]. inversion Hv as [|? ? _ Hv1]; subst. inversion Hv1 as [|? ? _ Hv2]; subst. apply Forall_app in Hv2. destruct Hv2 as [_ Hv2].
    inversion Hv2; subst. constructor. apply (choice_strs C). assumption.
  - apply IH, Hts.
Qed.
End D.

(** What a stored tree reaches. *)
Lemma reached_str es : forall t i k s, tree_strs t -> tree_at es i t -> reaches es i k -> nth_error es k = Some (EStr s) -> P s.
Proof.
  assert (ONE : forall t i j e k s, (forall i k s, tree_strs t -> tree_at es i t -> reaches es i k -> nth_error es k = Some (EStr s) -> P s) ->
    tree_strs t -> nth_error es i = Some e -> (forall s, e <> EStr s) -> children e = [j] -> tree_at es j t -> reaches es i k -> nth_error es k = Some (EStr s) -> P s).
  { intros t i j e k s IH T E N C TA R Ek. inversion R as [|? e' j' ? E' I R']; subst; [rewrite E in Ek; injection Ek as ->; destruct (N _ eq_refl)|].
    rewrite E in E'. injection E' as <-. rewrite C in I. destruct I as [<-|[]]. exact (IH j k s T TA R' Ek). }
  assert (LIST : forall l i js e k s, Forall (fun t => forall i k s, tree_strs t -> tree_at es i t -> reaches es i k -> nth_error es k = Some (EStr s) -> P s) l ->
    Forall tree_strs l -> nth_error es i = Some e -> (forall s, e <> EStr s) -> children e = js -> trees_at es js l -> reaches es i k -> nth_error es k = Some (EStr s) -> P s).
  { intros l i js e k s IH T E N C TA R Ek. inversion R as [|? e' j' ? E' I R']; subst; [rewrite E in Ek; injection Ek as ->; destruct (N _ eq_refl)|].
    rewrite E in E'. injection E' as <-. apply trees_at_forall2 in TA. clear R E N. revert T IH. induction TA as [|j t1 js l TA1 TA IHT]; intros T IH; [destruct I|].
    inversion T; subst. inversion IH; subst. destruct I as [->|I]; [eauto|]. apply IHT; assumption. }
  intros t. induction t as [s| |a b c|p|l IHl|l IHl|t IHt|t IHt|t IHt|t IHt|t IHt|t b p IHt|t ty IHt|t IHt|t IHt] using tree_ind'; intros i k s0 T H R Ek; cbn [tree_at] in H; inversion T; subst.
  - inversion R as [|? e' j' ? E' I R']; subst; [congruence|]. rewrite H in E'. injection E' as <-. destruct I.
  - inversion R as [|? e' j' ? E' I R']; subst; [congruence|]. rewrite H in E'. injection E' as <-. destruct I.
  - inversion R as [|? e' j' ? E' I R']; subst; [congruence|]. rewrite H in E'. injection E' as <-. destruct I.
  - inversion R as [|? e' j' ? E' I R']; subst; [congruence|]. rewrite H in E'. injection E' as <-. destruct I.
  - destruct H as (js & E & TA). refine (LIST l i js _ k s0 IHl _ E _ _ TA R Ek); [assumption|discriminate|reflexivity].
  - destruct H as (js & E & TA). refine (LIST l i js _ k s0 IHl _ E _ _ TA R Ek); [assumption|discriminate|reflexivity].
  - destruct H as (j & E & TA). refine (ONE t i j _ k s0 IHt _ E _ _ TA R Ek); [assumption|discriminate|reflexivity].
  - destruct H as (j & E & TA). refine (ONE t i j _ k s0 IHt _ E _ _ TA R Ek); [assumption|discriminate|reflexivity].
  - destruct H as (j & E & TA). refine (ONE t i j _ k s0 IHt _ E _ _ TA R Ek); [assumption|discriminate|reflexivity].
  - destruct H as (j & E & TA). refine (ONE t i j _ k s0 IHt _ E _ _ TA R Ek); [assumption|discriminate|reflexivity].
  - destruct H as (j & E & TA). refine (ONE t i j _ k s0 IHt _ E _ _ TA R Ek); [assumption|discriminate|reflexivity].
  - destruct H as (j & E & TA). refine (ONE t i j _ k s0 IHt _ E _ _ TA R Ek); [assumption|discriminate|reflexivity].
  - destruct H as (j & E & TA). refine (ONE t i j _ k s0 IHt _ E _ _ TA R Ek); [assumption|discriminate|reflexivity].
  - destruct H as (j & E & TA). refine (ONE t i j _ k s0 IHt _ E _ _ TA R Ek); [assumption|discriminate|reflexivity].
  - destruct H as (u & j & E & E2 & TA). refine (ONE (XAsc t (IRegular TUnit)) i u _ k s0 _ _ E _ _ _ R Ek).
    + intros i0 k0 s1 T1 TA1 R1 E1. inversion T1; subst. destruct TA1 as (j1 & E3 & TA1). refine (ONE t i0 j1 _ k0 s1 IHt _ E3 _ _ TA1 R1 E1); [assumption|discriminate|reflexivity].
    + constructor. assumption.
    + discriminate.
    + reflexivity.
    + exists j. auto.
Qed.
End P.

(** Every expression belongs to some rule. *)
Lemma all_used rl es : (forall i e, nth_error es i = Some e -> Forall (fun j => j < i) (children e)) ->
  Permutation (map rexpr rl ++ flat_map children es) (seq 0 (length es)) -> forall i, i < length es -> used rl es i.
Proof.
  intros O PM i. remember (length es - i) as m eqn:M. revert i M. induction m as [m IH] using lt_wf_ind. intros i M L.
  assert (I : In i (seq 0 (length es))) by (apply in_seq; lia). apply (Permutation_in _ (Permutation_sym PM)) in I. apply in_app_iff in I. destruct I as [I|I].
  - apply in_map_iff in I. destruct I as (r & <- & I). exists r. split; [exact I|constructor].
  - apply in_flat_map in I. destruct I as (e & Ie & Ic). apply In_nth_error in Ie. destruct Ie as (p & Ep).
    pose proof (O p e Ep) as F. rewrite Forall_forall in F. specialize (F i Ic). cbv beta in F.
    assert (Lp : p < length es) by (apply nth_error_Some; congruence).
    assert (U : used rl es p) by (apply (IH (length es - p)); lia). exact (used_child U Ep Ic).
Qed.
