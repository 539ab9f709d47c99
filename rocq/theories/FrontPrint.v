(** The canonical text of a grammar is in the documented syntax, with its own meaning. *)
From Coq Require Import Ascii.
From Verif Require Import Base Grammar CharClass Analysis Front FrontFacts FrontSpec FrontSound FrontRound FrontGrammar TreeFacts TreeSpec.
Set Implicit Arguments. Unset Strict Implicit.
Open Scope nat_scope. Open Scope list_scope.

Section Print.
Variable rust_type : list tok -> option (string * list tok).
Variable rust_item : list tok -> option (Analysis.rust_item * list tok).
Variable ty_toks : string -> list tok.
Local Notation pr := (print ty_toks).

(** The syntax at a level of precedence. *)
Definition at_level (n : nat) : list tok -> tree -> Prop :=
  match n with
  | 0 => d_choice rust_type | 1 => d_branch rust_type | 2 => d_spanned rust_type | 3 => d_seq rust_type | 4 => d_typed rust_type
  | 5 => d_prefixed rust_type | 6 => d_suffixed rust_type | _ => d_atom rust_type
  end.
Lemma level_step n ts t : n < 7 -> at_level (S n) ts t -> at_level n ts t.
Proof. intros L H. do 7 (destruct n as [|n]; [constructor; exact H|]). lia. Qed.
Lemma level_down k : forall n ts t, n + k <= 7 -> at_level (n + k) ts t -> at_level n ts t.
Proof.
  induction k as [|k IH]; intros n ts t L H; [rewrite Nat.add_0_r in H; exact H|]. apply level_step; [lia|]. apply IH; [lia|]. rewrite Nat.add_succ_comm. exact H.
Qed.
Lemma level_le n m ts t : n <= m -> m <= 7 -> at_level m ts t -> at_level n ts t.
Proof. intros L1 L2 H. apply (level_down (k := m - n)); replace (n + (m - n)) with m by lia; assumption. Qed.
Lemma level_7 t : level_of t <= 7. Proof. destruct t; cbn; lia. Qed.
Lemma wrap_level t n : n <= 7 -> at_level (level_of t) (pr t) t -> at_level n (print_at ty_toks n t) t.
Proof.
  intros L H. unfold print_at, wrap. pose proof (level_7 t). destruct (level_of t <? n) eqn:Q.
  - apply (level_le (m := 7)); [exact L|lia|]. apply atom_paren. exact (level_le (n := 0) (Nat.le_0_l _) H0 H).
  - apply Nat.ltb_ge in Q. exact (level_le Q H0 H).
Qed.
Lemma seg_print s : d_seg (seg_tok s) s.
Proof.
  unfold seg_tok. destruct (existsb (String.eqb s) path_keywords) eqn:E; [|constructor]. constructor. apply existsb_exists in E. destruct E as (x & I & Q). apply String.eqb_eq in Q. subst x. exact I.
Qed.
Lemma segs_print p : p <> [] -> d_segs (path_toks p) p.
Proof.
  induction p as [|s p IH]; [congruence|]. intros _. destruct p as [|s' p]; [apply segs_one, seg_print|]. change (path_toks (s :: s' :: p)) with (seg_tok s :: TPunct ":" true :: TPunct ":" false :: path_toks (s' :: p)).
  apply segs_more; [apply seg_print|]. apply IH. discriminate.
Qed.
Lemma path_print p : p <> [] -> d_path (path_toks p) p.
Proof. intros NE. apply path_plain, segs_print, NE. Qed.
Lemma ty_print ty : canon_ty rust_type ty_toks ty -> d_ty rust_type (ity_toks ty_toks ty) ty.
Proof. intros [->|[->|(s & -> & D & _)]]; cbn [ity_toks]; [apply ty_invisible|apply ty_unit|]. apply (@ty_rust _ _ _ []). apply D. reflexivity. Qed.
Lemma print_derives t : canon rust_type ty_toks t -> at_level (level_of t) (pr t) t.
Proof.
  induction t as [s| |a b c|p|l IHl|l IHl|t IHt|t IHt|t IHt|t IHt|t IHt|t b p IHt|t ty IHt|t IHt|t IHt] using tree_ind'; intros C; cbn [canon] in C.
  - apply atom_str.
  - apply atom_any.
  - apply atom_class; apply C.
  - apply atom_call, path_print, C.
  - destruct C as [L C]. apply canon_all in C. cbn [level_of at_level]. apply seq_many; [|exact L].
    assert (GO : forall l, l <> [] -> Forall (fun t => canon rust_type ty_toks t -> at_level (level_of t) (pr t) t) l -> Forall (canon rust_type ty_toks) l ->
      d_items rust_type ((fix go (l : list tree) : list tok := match l with [] => [] | t :: l' => wrap 4 (level_of t) (pr t) ++ go l' end) l) l).
    { clear - rust_item. induction l as [|t l IH]; [congruence|]. intros _ F1 F2. inversion F1; subst. inversion F2; subst. assert (D : d_typed rust_type (print_at ty_toks 4 t) t) by (apply (@wrap_level t 4 ltac:(lia)); auto).
      destruct l as [|t' l]; [rewrite app_nil_r; apply items_one; exact D|]. apply items_more; [exact D|]. apply IH; [discriminate|assumption|assumption]. }
    apply GO; [intros ->; cbn in L; lia|exact IHl|exact C].
  - destruct C as [L C]. apply canon_all in C. cbn [level_of at_level]. apply choice_alt; [|exact L].
    assert (GO : forall l, l <> [] -> Forall (fun t => canon rust_type ty_toks t -> at_level (level_of t) (pr t) t) l -> Forall (canon rust_type ty_toks) l ->
      d_branches rust_type ((fix go (l : list tree) : list tok := match l with [] => [] | [t] => wrap 1 (level_of t) (pr t) | t :: l' => wrap 1 (level_of t) (pr t) ++ TPunct "/" false :: go l' end) l) l).
    { clear - rust_item. induction l as [|t l IH]; [congruence|]. intros _ F1 F2. inversion F1; subst. inversion F2; subst. assert (D : d_branch rust_type (print_at ty_toks 1 t) t) by (apply (@wrap_level t 1 ltac:(lia)); auto).
      destruct l as [|t' l]; [apply branches_one; exact D|]. apply branches_more; [exact D|]. apply IH; [discriminate|assumption|assumption]. }
    apply GO; [intros ->; cbn in L; lia|exact IHl|exact C].
  - apply suffixed_star. exact (@wrap_level t 7 ltac:(lia) (IHt C)).
  - apply suffixed_plus. exact (@wrap_level t 7 ltac:(lia) (IHt C)).
  - apply suffixed_opt. exact (@wrap_level t 7 ltac:(lia) (IHt C)).
  - apply prefixed_not. exact (@wrap_level t 6 ltac:(lia) (IHt C)).
  - apply prefixed_and. exact (@wrap_level t 6 ltac:(lia) (IHt C)).
  - destruct C as [NE C]. pose proof (@wrap_level t 2 ltac:(lia) (IHt C)) as D. destruct b; [apply branch_box|apply branch_act]; try exact D; apply path_print, NE.
  - destruct C as [CT C]. apply typed_asc; [exact (@wrap_level t 5 ltac:(lia) (IHt C))|apply ty_print, CT].
  - apply spanned_span. exact (@wrap_level t 3 ltac:(lia) (IHt C)).
  - apply spanned_range. exact (@wrap_level t 3 ltac:(lia) (IHt C)).
Qed.
Lemma choice_print t : canon rust_type ty_toks t -> d_choice rust_type (pr t) t.
Proof. intros C. exact (level_le (n := 0) (Nat.le_0_l _) (level_7 t) (print_derives C)). Qed.
Lemma block_print s : canon_source rust_type rust_item ty_toks s -> d_block rust_type rust_item (print_source ty_toks s) (meaning s).
Proof.
  destruct s as [n [ty|] t|u it]; cbn [canon_source print_source meaning].
  - intros [CT C]. apply block_typed; [apply ty_print, CT|apply choice_print, C].
  - intros C. apply block_rule, choice_print, C.
  - intros [H _]. apply (@block_item _ _ u it []). apply H.
Qed.
Lemma attrs_print l : Forall (fun p : list string => p <> []) l -> d_attrs (flat_map print_attr l) l.
Proof.
  induction 1 as [|p l NE F IH]; [constructor|]. cbn [flat_map print_attr app]. rewrite <- (app_nil_r (path_toks p)). apply attrs_cons; [apply path_print, NE|exact IH].
Qed.
Theorem grammar_print l : Forall (canon_block rust_type rust_item ty_toks) l -> d_grammar rust_type rust_item (print_grammar ty_toks l) (flat_map fst l) (map (fun q => meaning (snd q)) l).
Proof.
  induction 1 as [|q l [CA CS] F IH]; [constructor|]. cbn [print_grammar flat_map map]. unfold print_block at 1. rewrite <- app_assoc. apply grammar_cons; [apply attrs_print, CA|apply block_print, CS|exact IH].
Qed.
End Print.
