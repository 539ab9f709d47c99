(** Semantic consequences of the certificate: soundness of the attributes, absence of left recursion,
    totality of the PEG semantics. *)
From Verif Require Import Base Grammar PegSpec WellFormed WfFacts.
From Coq Require Import Wellfounded Relations.
Set Implicit Arguments. Unset Strict Implicit.

(** [needs it s it' s']: to match [it] at [s] the evaluation has to match [it'] at [s'].
    Specification of "can reach"; written from Ford's semantics only. *)
Section Needs.
Variable G : grammar.
Variable X : list string -> text -> option text -> Prop.
Notation matches := (matches G X).

Inductive needs : item * text -> item * text -> Prop :=
| n_nt i id rl s : expr_of G i = Some (ENT id) -> find_rule G id = Some rl -> needs (IE i, s) (IE (rexpr rl), s)
| n_seq i l s : expr_of G i = Some (ESeq l) -> needs (IE i, s) (ISeq l, s)
| n_alt i l s : expr_of G i = Some (EAlt l) -> needs (IE i, s) (IAlt l, s)
| n_star i e s : expr_of G i = Some (EStar e) -> needs (IE i, s) (IStar e, s)
| n_plus_first i e s : expr_of G i = Some (EPlus e) -> needs (IE i, s) (IE e, s)
| n_plus_more i e s s1 : expr_of G i = Some (EPlus e) -> matches (IE e) s (Some s1) -> needs (IE i, s) (IStar e, s1)
| n_opt i e s : expr_of G i = Some (EOpt e) -> needs (IE i, s) (IE e, s)
| n_not i e s : expr_of G i = Some (ENot e) -> needs (IE i, s) (IE e, s)
| n_and i e s : expr_of G i = Some (EAnd e) -> needs (IE i, s) (IE e, s)
| n_act i e b f s : expr_of G i = Some (EAct e b f) -> needs (IE i, s) (IE e, s)
| n_asc i e t s : expr_of G i = Some (EAsc e t) -> needs (IE i, s) (IE e, s)
| n_span i e s : expr_of G i = Some (ESpan e) -> needs (IE i, s) (IE e, s)
| n_range i e s : expr_of G i = Some (ERange e) -> needs (IE i, s) (IE e, s)
| n_seq_first i l s : needs (ISeq (i :: l), s) (IE i, s)
| n_seq_rest i l s s1 : matches (IE i) s (Some s1) -> needs (ISeq (i :: l), s) (ISeq l, s1)
| n_alt_first i l s : needs (IAlt (i :: l), s) (IE i, s)
| n_alt_rest i l s : matches (IE i) s None -> needs (IAlt (i :: l), s) (IAlt l, s)
| n_star_body e s : needs (IStar e, s) (IE e, s)
| n_star_again e s s1 : matches (IE e) s (Some s1) -> needs (IStar e, s) (IStar e, s1).
End Needs.

(** External rules return and consume something when they succeed. *)
Record ext_consuming (X : list string -> text -> option text -> Prop) : Prop := {
  ec_total : forall p s, exists r, X p s r;
  ec_consume : forall p s s1, X p s (Some s1) -> length s1 < length s
}.

Section Sound.
Variable G : grammar.
Variable W : string -> option wfa.
Variable X : list string -> text -> option text -> Prop.
Hypothesis HW : wf_cert G W.
Hypothesis HX : forall p s s1, X p s (Some s1) -> length s1 < length s.
Notation matches := (matches G X).
Notation judged := (judged G W).

Ltac same_expr := repeat match goal with
  | H1 : expr_of G ?i = Some _, H2 : expr_of G ?i = Some _ |- _ => rewrite H1 in H2; first [discriminate H2|injection H2; intros; subst; clear H2]
  end.

Lemma judged_det it a : judged it a -> forall b, judged it b -> a = b.
Proof.
  induction 1; intros b' H'; inversion H'; subst; same_expr; try reflexivity; try congruence;
    repeat match goal with IH : forall b, judged ?it b -> _ = b, H : judged ?it _ |- _ => apply IH in H; subst end; try reflexivity.
Qed.

Definition sound (s : text) (r : option text) (a : wfa) : Prop :=
  (r = None -> can_fail a = true) /\
  (forall s1, r = Some s1 -> length s1 <= length s /\ (always_consume a = true -> length s1 < length s) /\ (never_consume a = true -> s1 = s)).

Lemma attributes_sound it s r : matches it s r -> forall a, judged it a -> sound s r a.
Proof.
  unfold sound. induction 1; intros a0 J; inversion J; subst; same_expr; cbn [can_fail always_consume never_consume wfa_default always_succeed] in *;
    repeat match goal with IH : forall a, judged ?it a -> _, H : judged ?it _ |- _ => specialize (IH _ H) end;
    repeat match goal with H : _ /\ _ |- _ => destruct H end;
    try solve [split; [try discriminate; auto|intros s1' E; try discriminate E; injection E; intros; subst; cbn [length]; repeat split; intros; try discriminate; try reflexivity; try lia]].
  all: try (split; assumption).
  - cbn [app]. split; [discriminate|]. intros s1 E; injection E; intros; subst. cbn [length]. rewrite app_length. repeat split; intros; try discriminate; lia.
  - exfalso. match goal with H : forall rest, _ <> [] ++ rest |- _ => exact (H _ eq_refl) end.
  - match goal with F : find_rule G _ = Some _ |- _ => destruct (wc_fix HW F) as (b & Wb & Jb) end.
    match goal with H : W ?id = Some a0 |- _ => assert (b = a0) as -> by congruence end.
    match goal with IH : forall a, judged _ a -> _ |- _ => exact (IH _ Jb) end.
  - split; [reflexivity|]. intros s1 ->. match goal with H : X _ _ _ |- _ => apply HX in H end. repeat split; intros; try discriminate; lia.
  - match goal with J : judged (IE _) a0, IH : forall a, judged (IStar _) a -> _ |- _ => specialize (IH _ (j_star_it J)); destruct IH as [N2 S2] end. cbn in N2, S2.
    split; [intros E; specialize (N2 E); discriminate|]. intros s2 E. destruct (S2 _ E) as (A & B & C).
    match goal with H : forall s, Some ?x = Some s -> _ |- _ => destruct (H _ eq_refl) as (A1 & B1 & C1) end.
    repeat split; intros; [lia| |].
    + match goal with K : always_consume _ = true |- _ => specialize (B1 K); lia end.
    + match goal with K : never_consume _ = true |- _ => rewrite (C K); apply C1, K end.
  - split; [discriminate|]. intros s2 E; injection E; intros <-.
    match goal with H : forall s, Some ?x = Some s -> _ |- _ => destruct (H _ eq_refl) as (A1 & B1 & C1) end.
    repeat split; intros; [lia|discriminate|apply C1; assumption].
  - match goal with H : forall s, Some ?x = Some s -> _ |- _ => destruct (H _ eq_refl) as (A1 & B1 & C1) end.
    match goal with N : r = None -> _, S : forall s1, r = Some s1 -> _ |- _ => rename N into N2; rename S into S2 end.
    split; [intros E; rewrite (N2 E); apply orb_true_r|]. intros s2 E. destruct (S2 _ E) as (A & B & C). (split; [|split; intros K]).
    + lia.
    + apply orb_true_iff in K. destruct K as [K|K]; [specialize (B1 K)|specialize (B K)]; lia.
    + apply andb_true_iff in K. destruct K as [K1 K2]. rewrite (C K2). apply C1, K1.
  - split; [intros _|discriminate]. match goal with N : None = None -> _ |- _ => rewrite (N eq_refl) end. reflexivity.
  - match goal with H : forall s, Some ?x = Some s -> _ |- _ => destruct (H _ eq_refl) as (A1 & B1 & C1) end.
    split; [discriminate|]. intros s2 E; injection E; intros <-. (split; [|split; intros K]); [lia| |]; apply andb_true_iff in K; destruct K; auto.
  - match goal with N : None = None -> _ |- _ => specialize (N eq_refl); rewrite N end.
    match goal with N : r = None -> _, S : forall s1, r = Some s1 -> _ |- _ => rename N into N2; rename S into S2 end.
    split; [exact N2|]. intros s2 E. destruct (S2 _ E) as (A & B & C). (split; [|split; intros K]); [lia| |]; apply andb_true_iff in K; destruct K; auto.
  - match goal with N : r = None -> _, S : forall s1, r = Some s1 -> _ |- _ => rename N into N2; rename S into S2 end.
    split; [exact N2|]. intros s2 E. destruct (S2 _ E) as (A & B & C).
    match goal with H : forall s, Some ?x = Some s -> _ |- _ => destruct (H _ eq_refl) as (A1 & B1 & C1) end.
    (split; [|split; intros K]); [lia|discriminate|]. rewrite (C K). apply C1, K.
Qed.

(** ---------------- evaluation is well founded ---------------- *)
Notation ev := (fun y x => needs G X x y).
Definition acc (it : item) (s : text) : Prop := Acc ev (it, s).

Lemma good_judged i : in_rules G i -> exists a, judged (IE i) a.
Proof. intros H. destruct (wc_good HW H) as [(a & J & _) _]. eauto. Qed.

Lemma sub_trans i j k : sub G i j -> sub G j k -> sub G i k.
Proof. induction 1; intros; [assumption|econstructor; eauto]. Qed.
Lemma in_rules_child i e j : in_rules G i -> expr_of G i = Some e -> In j (children e) -> in_rules G j.
Proof.
  intros (id & rl & F & S) E I. exists id, rl. split; [exact F|]. eapply sub_trans; [exact S|].
  econstructor; [exact E|exact I|constructor].
Qed.
Lemma in_rules_rule id rl : find_rule G id = Some rl -> in_rules G (rexpr rl).
Proof. intros F. exists id, rl. split; [exact F|constructor]. Qed.

Lemma succ_le i s s1 : in_rules G i -> matches (IE i) s (Some s1) -> length s1 <= length s.
Proof. intros Hi M. destruct (good_judged Hi) as [a J]. destruct (attributes_sound M J) as [_ K]. apply (K s1 eq_refl). Qed.
Lemma body_consumes i e s s1 : in_rules G i -> expr_of G i = Some (EStar e) \/ expr_of G i = Some (EPlus e) ->
  matches (IE e) s (Some s1) -> length s1 < length s.
Proof.
  intros Hi E M. destruct (wc_good HW Hi) as (_ & B & _). destruct (B e E) as (a & J & A).
  destruct (attributes_sound M J) as [_ K]. apply (K s1 eq_refl), A.
Qed.

(** Every expression of a rule is accessible on texts of length below [n]. *)
Definition below (n : nat) : Prop := forall i s, in_rules G i -> length s < n -> acc (IE i) s.

Lemma star_acc i e n : in_rules G i -> expr_of G i = Some (EStar e) \/ expr_of G i = Some (EPlus e) ->
  (forall s, length s <= n -> acc (IE e) s) -> forall s, length s <= n -> acc (IStar e) s.
Proof.
  intros Hi E HE. assert (K : forall m s, length s < m -> length s <= n -> acc (IStar e) s).
  { induction m as [|m IH]; intros s Lm Ln; [lia|]. constructor. intros [it s'] N. inversion N; subst.
    - apply HE, Ln.
    - match goal with M : matches _ _ _ |- _ => pose proof (body_consumes Hi E M) end. apply IH; lia. }
  intros s L. apply (K (Datatypes.S (length s))); lia.
Qed.

Lemma seq_acc_below n l : below n -> Forall (in_rules G) l -> forall s, length s < n -> acc (ISeq l) s.
Proof.
  intros B F. induction F as [|i l Hi F IH]; intros s L; constructor; intros [it s'] N; inversion N; subst.
  - apply B; assumption.
  - apply IH. match goal with M : matches _ _ _ |- _ => pose proof (succ_le Hi M) end. lia.
Qed.

(** Sequences: if the first expressions are accessible at length [n] as long as nothing was consumed. *)
Definition item_in (it : item) : Prop :=
  match it with IE i => in_rules G i | ISeq l | IAlt l => Forall (in_rules G) l | IStar e => in_rules G e end.

Lemma acc_unary i e j s n : below n -> in_rules G i -> expr_of G i = Some e -> unary e = Some j -> length s <= n ->
  acc (IE j) s -> acc (IE i) s.
Proof.
  intros B Hi E U L A.
  assert (Hj : in_rules G j) by (eapply in_rules_child; [exact Hi|exact E|]; destruct e; try discriminate U; cbn in U; injection U as ->; left; reflexivity).
  assert (Star : forall k, expr_of G i = Some (EStar k) \/ expr_of G i = Some (EPlus k) -> k = j -> forall s', length s' < n -> acc (IStar k) s').
  { intros k Ek -> s' L'. destruct n as [|n]; [lia|]. eapply star_acc with (n := n); [exact Hi|exact Ek| |lia].
    intros s0 L0. apply B; [exact Hj|lia]. }
  constructor. intros [it s'] N. inversion N; subst; same_expr; cbn in U; try discriminate U; try (injection U as ->; exact A).
  - injection U as ->. constructor. intros [it s''] N'. inversion N'; subst; [exact A|].
    match goal with M : matches _ _ _ |- _ => pose proof (body_consumes Hi (or_introl E) M) end.
    apply Star; [left; exact E|reflexivity|lia].
  - injection U as ->. match goal with M : matches _ _ _ |- _ => pose proof (body_consumes Hi (or_intror E) M) end.
    apply Star; [right; exact E|reflexivity|lia].
Qed.

Lemma lfree_acc p it : lfree G W p it -> item_in it -> forall n s, below n -> length s <= n -> acc it s.
Proof.
  induction 1 as [p i e E Ch NN|p i id rl E NI F LF IH|p i l E LF IH|p i l E LF IH|p i e j E U LF IH
    |p|p i l a LF IH J LF2 IH2|p|p i l LF IH LF2 IH2]; intros HI n s B L.
  - constructor. intros [it s'] N. inversion N; subst; same_expr; try discriminate Ch; try (exfalso; eapply NN; reflexivity).
    + constructor. intros [it s''] N'. cbn in Ch. subst. inversion N'.
    + constructor. intros [it s''] N'. cbn in Ch. subst. inversion N'.
  - constructor. intros [it s'] N. inversion N; subst; same_expr.
    match goal with F1 : find_rule G ?x = Some rl, F2 : find_rule G ?x = Some ?rl2 |- _ => rewrite F1 in F2; injection F2 as <- end.
    eapply IH; [exact (in_rules_rule F)|exact B|exact L].
  - constructor. intros [it s'] N. inversion N; subst; same_expr. eapply IH; [|exact B|exact L].
    apply Forall_forall. intros j Hj. eapply in_rules_child; [exact HI|exact E|exact Hj].
  - constructor. intros [it s'] N. inversion N; subst; same_expr. eapply IH; [|exact B|exact L].
    apply Forall_forall. intros j Hj. eapply in_rules_child; [exact HI|exact E|exact Hj].
  - eapply acc_unary; [exact B|exact HI|exact E|exact U|exact L|]. eapply IH; [|exact B|exact L].
    eapply in_rules_child; [exact HI|exact E|]. destruct e; try discriminate U; cbn in U; injection U as ->; left; reflexivity.
  - constructor. intros [it s'] N. inversion N.
  - inversion HI as [|? ? Hi Hl]; subst. constructor. intros [it s'] N. inversion N; subst.
    + eapply IH; eassumption.
    + match goal with M : matches _ _ _ |- _ => pose proof (succ_le Hi M); destruct (attributes_sound M J) as [_ K] end.
      destruct (K _ eq_refl) as (_ & K1 & _).
      destruct (Nat.eq_dec (length s') n) as [En|].
      * destruct (always_consume a) eqn:A; [specialize (K1 eq_refl); lia|]. eapply IH2; [reflexivity|exact Hl|exact B|lia].
      * eapply seq_acc_below; [exact B|exact Hl|lia].
  - constructor. intros [it s'] N. inversion N.
  - inversion HI as [|? ? Hi Hl]; subst. constructor. intros [it s'] N. inversion N; subst.
    + eapply IH; eassumption.
    + eapply IH2; eassumption.
Qed.

(** All expressions of rules, once the rules are accessible. *)
Lemma sub_acc n (HC : forall i e, expr_of G i = Some e -> Forall (fun j => j < i) (children e)) : below n ->
  (forall id rl s, find_rule G id = Some rl -> length s <= n -> acc (IE (rexpr rl)) s) ->
  forall m i, i < m -> in_rules G i -> forall s, length s <= n -> acc (IE i) s.
Proof.
  intros B HR. induction m as [|m IHm]; intros i Lm Hi s L; [lia|].
  destruct (expr_of G i) as [e|] eqn:E.
  2: { constructor. intros [it s'] N. inversion N; subst; congruence. }
  assert (Hc : forall j, In j (children e) -> in_rules G j /\ j < m).
  { intros j Hj. split; [eapply in_rules_child; eassumption|]. pose proof (HC _ _ E) as Fo. rewrite Forall_forall in Fo. specialize (Fo j Hj). lia. }
  assert (Seq : forall l, (forall j, In j l -> in_rules G j /\ j < m) -> forall s, length s <= n -> acc (ISeq l) s).
  { induction l as [|j l IHl]; intros Hl s0 L0; constructor; intros [it s'] N; inversion N; subst.
    - destruct (Hl j (or_introl eq_refl)). apply IHm; assumption.
    - destruct (Hl j (or_introl eq_refl)) as [Hj _]. match goal with M : matches _ _ _ |- _ => pose proof (succ_le Hj M) end.
      apply IHl; [intros; apply Hl; right; assumption|lia]. }
  assert (Alt : forall l, (forall j, In j l -> in_rules G j /\ j < m) -> forall s, length s <= n -> acc (IAlt l) s).
  { induction l as [|j l IHl]; intros Hl s0 L0; constructor; intros [it s'] N; inversion N; subst.
    - destruct (Hl j (or_introl eq_refl)). apply IHm; assumption.
    - apply IHl; [intros; apply Hl; right; assumption|lia]. }
  destruct (unary e) as [j|] eqn:U.
  - eapply acc_unary; [exact B|exact Hi|exact E|exact U|exact L|].
    assert (Hj : In j (children e)) by (destruct e; try discriminate U; cbn in U; injection U as ->; left; reflexivity).
    destruct (Hc j Hj). apply IHm; assumption.
  - constructor. intros [it s'] N. inversion N; subst; same_expr; try discriminate U.
    + eapply HR; eassumption.
    + apply Seq; assumption.
    + apply Alt; assumption.
Qed.

Theorem eval_wf (HC : forall i e, expr_of G i = Some e -> Forall (fun j => j < i) (children e)) i s :
  in_rules G i -> acc (IE i) s.
Proof.
  assert (K : forall n, below n).
  { induction n as [|n B]; intros j s0 Hj L; [lia|].
    eapply sub_acc with (n := n) (m := Datatypes.S j); [exact HC|exact B| |lia|exact Hj|lia].
    intros id rl s1 F L1. eapply lfree_acc; [exact (wc_left HW F)|exact (in_rules_rule F)|exact B|exact L1]. }
  intros Hi. eapply K; [exact Hi|]. apply Nat.lt_succ_diag_r.
Qed.

(** ---------------- totality ---------------- *)
Lemma prefix_dec (lit s : text) : (exists rest, s = lit ++ rest) \/ (forall rest, s <> lit ++ rest).
Proof.
  revert s. induction lit as [|c lit IH]; intros s; [left; exists s; reflexivity|].
  destruct s as [|d s]; [right; intros rest E; discriminate E|].
  destruct (N.eq_dec c d) as [->|Ne]; [|right; intros rest E; injection E; intros; congruence].
  destruct (IH s) as [[rest ->]|H]; [left; exists rest; reflexivity|right].
  intros rest E. injection E; intros. eapply H; eassumption.
Qed.
Lemma class_dec c cls : in_class c cls \/ ~ in_class c cls.
Proof.
  induction cls as [|[lo hi] cls IH]; [right; intros (lo & hi & [] & _)|].
  destruct IH as [(l & h & I & K)|N]; [left; exists l, h; split; [right; exact I|exact K]|].
  destruct (N.le_gt_cases lo c), (N.le_gt_cases c hi).
  1: { left; exists lo, hi; repeat split; try assumption. left. reflexivity. }
  all: right; intros (l & h & [E|I] & K1 & K2); [injection E; intros; subst; lia|apply N; exists l, h; auto].
Qed.

Hypothesis HT : forall p s, exists r, X p s r.

Lemma star_some e s r : matches (IStar e) s r -> exists q, r = Some q.
Proof. intros H. remember (IStar e) as it eqn:E. induction H; try discriminate E; eauto. Qed.

Lemma total_acc it s : acc it s -> item_in it -> exists r, matches it s r.
Proof.
  unfold acc. intros A. remember (it, s) as q eqn:Eq. revert it s Eq.
  induction A as [q _ IH]. intros it s -> HI.
  assert (K : forall it' s', needs G X (it, s) (it', s') -> item_in it' -> exists r, matches it' s' r)
    by (intros it' s' N HI'; eapply IH; [exact N|reflexivity|exact HI']). clear IH.
  destruct it as [i|l|l|e].
  - cbn in HI. destruct (good_judged HI) as [a J]. 
    destruct (expr_of G i) as [ex|] eqn:Ei; [|inversion J; congruence].
    assert (Hc : forall j, In j (children ex) -> in_rules G j) by (intros; eapply in_rules_child; eassumption).
    destruct ex as [lit| |cls|id|p|l|l|e|e|e|e|e|e b f|e t|e|e].
    + destruct (prefix_dec lit s) as [[rest ->]|N]; eexists; [eapply m_str_ok|eapply m_str_fail]; eassumption.
    + destruct s; eexists; [eapply m_any_fail|eapply m_any_ok]; eassumption.
    + destruct s as [|c s]; [eexists; eapply m_class_eof; eassumption|].
      destruct (class_dec c cls); eexists; [eapply m_class_ok|eapply m_class_fail]; eassumption.
    + inversion J; subst; same_expr; try congruence.
      match goal with H : W _ = Some _ |- _ => destruct (wc_dom HW H) as [rl F] end.
      destruct (K (IE (rexpr rl)) s) as [r M]; [eapply n_nt; eassumption|exact (in_rules_rule F)|]. exists r. eapply m_nt; eassumption.
    + destruct (HT p s) as [r M]. exists r. eapply m_ext; eassumption.
    + destruct (K (ISeq l) s) as [r M]; [eapply n_seq; eassumption|apply Forall_forall; exact Hc|]. exists r. eapply m_seq; eassumption.
    + destruct (K (IAlt l) s) as [r M]; [eapply n_alt; eassumption|apply Forall_forall; exact Hc|]. exists r. eapply m_alt; eassumption.
    + destruct (K (IStar e) s) as [r M]; [eapply n_star; eassumption|apply Hc; left; reflexivity|]. exists r. eapply m_star; eassumption.
    + destruct (K (IE e) s) as [[s1|] M]; [eapply n_plus_first; eassumption|apply Hc; left; reflexivity| |].
      * destruct (K (IStar e) s1) as [r M']; [eapply n_plus_more; eassumption|apply Hc; left; reflexivity|]. exists r. eapply m_plus_ok; eassumption.
      * exists None. eapply m_plus_fail; eassumption.
    + destruct (K (IE e) s) as [[s1|] M]; [eapply n_opt; eassumption|apply Hc; left; reflexivity| |]; eexists; [eapply m_opt_some|eapply m_opt_none]; eassumption.
    + destruct (K (IE e) s) as [[s1|] M]; [eapply n_not; eassumption|apply Hc; left; reflexivity| |]; eexists; [eapply m_not_fail|eapply m_not_ok]; eassumption.
    + destruct (K (IE e) s) as [[s1|] M]; [eapply n_and; eassumption|apply Hc; left; reflexivity| |]; eexists; [eapply m_and_ok|eapply m_and_fail]; eassumption.
    + destruct (K (IE e) s) as [r M]; [eapply n_act; eassumption|apply Hc; left; reflexivity|]. exists r. eapply m_act; eassumption.
    + destruct (K (IE e) s) as [r M]; [eapply n_asc; eassumption|apply Hc; left; reflexivity|]. exists r. eapply m_asc; eassumption.
    + destruct (K (IE e) s) as [r M]; [eapply n_span; eassumption|apply Hc; left; reflexivity|]. exists r. eapply m_span; eassumption.
    + destruct (K (IE e) s) as [r M]; [eapply n_range; eassumption|apply Hc; left; reflexivity|]. exists r. eapply m_range; eassumption.
  - cbn in HI. destruct l as [|i l]; [eexists; constructor|]. inversion HI; subst.
    destruct (K (IE i) s) as [[s1|] M]; [constructor|assumption| |].
    + destruct (K (ISeq l) s1) as [r M']; [constructor; exact M|assumption|]. exists r. eapply m_seq_cons; eassumption.
    + exists None. eapply m_seq_fail; eassumption.
  - cbn in HI. destruct l as [|i l]; [eexists; constructor|]. inversion HI; subst.
    destruct (K (IE i) s) as [[s1|] M]; [constructor|assumption| |].
    + eexists. eapply m_alt_first; eassumption.
    + destruct (K (IAlt l) s) as [r M']; [constructor; exact M|assumption|]. exists r. eapply m_alt_next; eassumption.
  - cbn in HI. destruct (K (IE e) s) as [[s1|] M]; [constructor|assumption| |].
    + destruct (K (IStar e) s1) as [r M']; [constructor; exact M|assumption|]. exists r. eapply m_star_more; eassumption.
    + eexists. eapply m_star_stop; eassumption.
Qed.

Theorem peg_total (HC : forall i e, expr_of G i = Some e -> Forall (fun j => j < i) (children e)) i s :
  in_rules G i -> exists r, matches (IE i) s r.
Proof. intros Hi. apply total_acc; [apply eval_wf; assumption|exact Hi]. Qed.
End Sound.

(** A well-founded relation has no cycle. *)
Lemma acc_irrefl A (R : A -> A -> Prop) x : Acc R x -> ~ clos_trans A R x x.
Proof.
  intros H. apply (Acc_clos_trans A R) in H. induction H as [x _ IH]. intros C. exact (IH x C C).
Qed.
Lemma clos_trans_flip A (R : A -> A -> Prop) x y : clos_trans A R x y -> clos_trans A (fun a b => R b a) y x.
Proof. induction 1; [apply t_step; assumption|eapply t_trans; eassumption]. Qed.
