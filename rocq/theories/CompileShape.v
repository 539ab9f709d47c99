(** How the code generator transforms its context. *)
From Verif Require Import Base Grammar PegSpec Target Compile.
Set Implicit Arguments. Unset Strict Implicit.

Lemma cbind_ok A B (r : cres A) (k : A -> cres B) b : cbind r k = COk b ->
  exists a, r = COk a /\ k a = COk b.
Proof. destruct r as [a|]; simpl; intros H; [eauto|discriminate]. Qed.

Lemma COk_inj A (a b : A) : COk a = COk b -> a = b.
Proof. congruence. Qed.
Lemma pair_inj A B (a c : A) (b d : B) : (a, b) = (c, d) -> a = c /\ b = d.
Proof. split; congruence. Qed.

(** Decompose a chain of binds that succeeded. *)
Ltac inv_ok :=
  repeat match goal with
  | H : cbind _ _ = COk _ |- _ =>
    let a := fresh "a" in let E := fresh "E" in apply cbind_ok in H; destruct H as (a & E & H)
  | H : COk _ = COk _ |- _ => apply COk_inj in H
  | H : (_, _) = (_, _) |- _ => apply pair_inj in H; destruct H; subst
  | H : CErr _ = COk _ |- _ => discriminate H
  | H : (let '(_, _) := ?p in _) = COk _ |- _ => destruct p eqn:?
  | p : (_ * _)%type |- _ => destruct p
  end.

(** Names already used in a context. *)
Definition old (x : ctx) (n : name) : Prop :=
  match n with
  | NVar u _ => u < prefix_uid x
  | NMark k => k <= mark_uid x
  | NBranch k => k <= branch_uid x
  | NCounter k => k <= counter_uid x
  | NX => False
  end.

Record ctx_le (x y : ctx) : Prop := {
  le_prefix : prefix_uid x <= prefix_uid y;
  le_mark : mark_uid x <= mark_uid y;
  le_branch : branch_uid x <= branch_uid y;
  le_counter : counter_uid x <= counter_uid y;
  le_closure : closure_uid x <= closure_uid y;
  le_table : exists new, closures y = closures x ++ new
      /\ Forall (fun k => closure_uid x < fst k <= closure_uid y) new
}.

Lemma ctx_le_refl x : ctx_le x x.
Proof. constructor; try lia. exists []. rewrite app_nil_r. split; [reflexivity|constructor]. Qed.
Lemma ctx_le_trans x y z : ctx_le x y -> ctx_le y z -> ctx_le x z.
Proof.
  intros [] []. constructor; try lia. destruct le_table0 as (n1 & E1 & F1), le_table1 as (n2 & E2 & F2).
  exists (n1 ++ n2). rewrite E2, E1, app_assoc. split; [reflexivity|]. apply Forall_app. split.
  - eapply Forall_impl; [|exact F1]. simpl. intros; lia.
  - eapply Forall_impl; [|exact F2]. simpl. intros; lia.
Qed.
Lemma old_le x y n : ctx_le x y -> old x n -> old y n.
Proof. intros [] H. destruct n; simpl in *; try lia. Qed.

(** Same counters and table. *)
Definition same_names (x y : ctx) : Prop :=
  prefix_uid x = prefix_uid y /\ mark_uid x = mark_uid y /\ branch_uid x = branch_uid y
  /\ counter_uid x = counter_uid y /\ closure_uid x = closure_uid y /\ closures x = closures y.
Lemma same_names_le x y : same_names x y -> ctx_le x y.
Proof.
  intros (H1 & H2 & H3 & H4 & H5 & H6). constructor; try lia. exists []. rewrite app_nil_r.
  split; [congruence|constructor].
Qed.
Lemma same_names_old x y n : same_names x y -> old x n <-> old y n.
Proof. intros (H1 & H2 & H3 & H4 & H5 & H6). destruct n; simpl; rewrite ?H1, ?H2, ?H3, ?H4; tauto. Qed.

Record shape (n : nat) (x y : ctx) : Prop := {
  sh_le : ctx_le x y;
  sh_marks : marks y = marks x;
  sh_muts : muts y = muts x;
  sh_frees : exists xs, frees x = frees y ++ xs /\ length xs = n
}.

(** The number of values an expression contributes, per mode. *)
Definition ncard (G : grammar) (m : mode) (i : nat) : nat := match m with Rec => 0 | Par => card G i end.

(** Consistency of the types with the expressions, as far as the number of values is concerned:
    what the code generator relies on for expressions that build data. *)
Definition coh_expr (G : grammar) (i : nat) (e : expr) : Prop :=
  match e with
  | EStr _ | ENot _ | EAnd _ => False
  | EAny | EClass _ | EStar _ | EPlus _ | EOpt _ | EAct _ _ _ | EExt _ => card G i = 1
  | ENT id => exists rl, find_rule G id = Some rl /\ card G (rexpr rl) = card G i
                         /\ is_unit G (rexpr rl) = false
  | ESeq l => card G i = list_sum (map (card G) l)
  | EAlt l => Forall (fun j => card G j = card G i) l
  | EAsc e _ => card G e = card G i
  | ESpan e | ERange e => card G i = S (card G e)
  end.
Definition coherent (G : grammar) : Prop :=
  forall i e, expr_of G i = Some e -> is_unit G i = false -> coh_expr G i e.
Definition cohm (G : grammar) (m : mode) : Prop := match m with Rec => True | Par => coherent G end.

Lemma next_free_var_ok x v y : next_free_var x = COk (v, y) ->
  frees x = frees y ++ [v] /\ y = with_frees x (frees y).
Proof.
  unfold next_free_var. destruct (rev (frees x)) as [|w r] eqn:E; [discriminate|].
  intros H. injection H; intros <- <-. simpl. split; [|reflexivity].
  rewrite <- (rev_involutive (frees x)), E. reflexivity.
Qed.
Lemma next_free_var_some x l v : frees x = l ++ [v] -> next_free_var x = COk (v, with_frees x l).
Proof. intros H. unfold next_free_var. rewrite H, rev_app_distr. simpl. rewrite rev_involutive. reflexivity. Qed.

Lemma next_free_var_skip_ok k x v y : next_free_var_skip k x = COk (v, y) ->
  exists a b, frees x = a ++ [v] ++ b /\ length b = k /\ y = with_frees x (a ++ b).
Proof.
  unfold next_free_var_skip. destruct (nth_error (rev (frees x)) k) as [w|] eqn:E; [|discriminate].
  pose proof (nth_error_split _ _ E) as (l1 & l2 & F & L). subst k. rewrite F.
  assert (E1 : firstn (length l1) (l1 ++ w :: l2) = l1).
  { rewrite firstn_app, firstn_all, Nat.sub_diag. cbn [firstn]. apply app_nil_r. }
  assert (E2 : skipn (S (length l1)) (l1 ++ w :: l2) = l2).
  { rewrite skipn_app. rewrite skipn_all2 by lia. replace (S (length l1) - length l1) with 1 by lia. reflexivity. }
  rewrite E1, E2. intros H. assert (w = v /\ with_frees x (rev (l1 ++ l2)) = y) as [<- <-] by (split; congruence).
  exists (rev l2), (rev l1). rewrite (rev_app_distr l1 l2), rev_length. split; [|split; reflexivity].
  rewrite <- (rev_involutive (frees x)), F, rev_app_distr. simpl. rewrite <- app_assoc. reflexivity.
Qed.
Lemma next_free_var_skip_some x a v b : frees x = a ++ [v] ++ b ->
  next_free_var_skip (length b) x = COk (v, with_frees x (a ++ b)).
Proof.
  intros H. assert (R : rev (frees x) = rev b ++ v :: rev a).
  { rewrite H, !rev_app_distr. cbn [rev app]. rewrite <- app_assoc. reflexivity. }
  unfold next_free_var_skip. rewrite R. rewrite <- (rev_length b).
  assert (E1 : firstn (length (rev b)) (rev b ++ v :: rev a) = rev b).
  { rewrite firstn_app, firstn_all, Nat.sub_diag. cbn [firstn]. apply app_nil_r. }
  assert (E2 : skipn (S (length (rev b))) (rev b ++ v :: rev a) = rev a).
  { rewrite skipn_app. rewrite skipn_all2 by lia.
    replace (S (length (rev b)) - length (rev b)) with 1 by lia. reflexivity. }
  rewrite E1, E2. rewrite nth_error_app2, Nat.sub_diag by lia. cbn [nth_error].
  rewrite rev_app_distr, !rev_involutive. reflexivity.
Qed.

Lemma pop_vars_ok n : forall x vs y, pop_vars n x = COk (vs, y) ->
  frees x = frees y ++ vs /\ length vs = n /\ y = with_frees x (frees y).
Proof.
  induction n as [|n IH]; intros x vs y H; simpl in H.
  - injection H; intros <- <-. rewrite app_nil_r. destruct x; auto.
  - inv_ok. apply next_free_var_ok in E. destruct E as [E1 E2]. apply IH in E0. destruct E0 as (E3 & E4 & E5).
    rewrite app_length. simpl. split; [rewrite E1, E3, app_assoc; reflexivity|]. split; [lia|].
    rewrite E5, E2. reflexivity.
Qed.
Lemma pop_vars_some n : forall x l vs, frees x = l ++ vs -> length vs = n ->
  pop_vars n x = COk (vs, with_frees x l).
Proof.
  induction n as [|n IH]; intros x l vs H L; simpl.
  - destruct vs; [|discriminate]. rewrite app_nil_r in H. subst l. destruct x; reflexivity.
  - destruct vs as [|v0 vs0] using rev_ind; [discriminate|]. clear IHvs0. rewrite app_length in L. simpl in L.
    rewrite app_assoc in H. rewrite (next_free_var_some H). simpl.
    rewrite (IH _ l vs0); [reflexivity|reflexivity|lia].
Qed.

Lemma shape_refl x : shape 0 x x.
Proof. constructor; auto using ctx_le_refl. exists []. rewrite app_nil_r. auto. Qed.
Lemma shape_trans n m x y z : shape n x y -> shape m y z -> shape (m + n) x z.
Proof.
  intros [] []. constructor; [eapply ctx_le_trans; eassumption|congruence|congruence|].
  destruct sh_frees0 as (a & E1 & L1), sh_frees1 as (b & E2 & L2). exists (b ++ a).
  rewrite E1, E2, app_assoc, app_length. split; [reflexivity|lia].
Qed.
Lemma shape_ncomb n x y k : shape n x y -> shape n x (with_ncomb y k).
Proof. intros []. constructor; [|assumption..]. eapply ctx_le_trans; [eassumption|]. apply same_names_le. repeat split. Qed.
Lemma shape_ncomb_l n x y k : shape n (with_ncomb x k) y -> shape n x y.
Proof.
  intros []. constructor; [|assumption..]. eapply ctx_le_trans; [|eassumption]. apply same_names_le. repeat split.
Qed.

Lemma fresh_mark_le x : ctx_le x (snd (next_mark x)).
Proof. constructor; simpl; try lia. exists []. rewrite app_nil_r. split; [reflexivity|constructor]. Qed.
Lemma fresh_branch_le x : ctx_le x (snd (next_branch x)).
Proof. constructor; simpl; try lia. exists []. rewrite app_nil_r. split; [reflexivity|constructor]. Qed.
Lemma fresh_counter_le x : ctx_le x (snd (next_counter x)).
Proof. constructor; simpl; try lia. exists []. rewrite app_nil_r. split; [reflexivity|constructor]. Qed.
Lemma fresh_vars_le n x : ctx_le x (snd (fresh_vars n x)).
Proof. constructor; simpl; try lia. exists []. rewrite app_nil_r. split; [reflexivity|constructor]. Qed.
Lemma with_frees_le x l : ctx_le x (with_frees x l).
Proof. apply same_names_le. repeat split. Qed.
Lemma with_muts_le x l : ctx_le x (with_muts x l).
Proof. apply same_names_le. repeat split. Qed.
Lemma with_marks_le x l : ctx_le x (with_marks x l).
Proof. apply same_names_le. repeat split. Qed.
Lemma with_ncomb_le x l : ctx_le x (with_ncomb x l).
Proof. apply same_names_le. repeat split. Qed.
Lemma restore_scope_le s x : ctx_le x (restore_scope s x).
Proof. apply same_names_le. repeat split. Qed.
Lemma open_scope_le n x : ctx_le x (snd (open_scope n x)).
Proof. constructor; simpl; try lia. exists []. rewrite app_nil_r. split; [reflexivity|constructor]. Qed.
Lemma success_as_closure_le s x : ctx_le x (snd (success_as_closure s x)).
Proof.
  unfold success_as_closure. destruct (0 <? ncomb x); simpl; [|apply ctx_le_refl].
  constructor; simpl; try lia. eexists. split; [reflexivity|]. constructor; [simpl; lia|constructor].
Qed.
Lemma close_scope_ok s x y : close_scope s x = COk y -> frees x = [] /\ y = restore_scope s x.
Proof. unfold close_scope. destruct (frees x); [|discriminate]. intros H. injection H; auto. Qed.
Lemma pop_mut_ok x y : pop_mut x = COk y -> muts x <> [] /\ y = with_muts x (removelast (muts x)).
Proof. unfold pop_mut. destruct (muts x); [discriminate|]. intros H. injection H; intros <-. split; [discriminate|reflexivity]. Qed.


Lemma sh_mark x m y : next_mark x = (m, y) -> shape 0 x y.
Proof. intros H. injection H; intros <- <-. constructor; auto; [apply fresh_mark_le|]. exists []. rewrite app_nil_r. auto. Qed.
Lemma sh_counter x m y : next_counter x = (m, y) -> shape 0 x y.
Proof. intros H. injection H; intros <- <-. constructor; auto; [apply fresh_counter_le|]. exists []. rewrite app_nil_r. auto. Qed.
Lemma sh_branch x m y : next_branch x = (m, y) -> shape 0 x y.
Proof. intros H. injection H; intros <- <-. constructor; auto; [apply fresh_branch_le|]. exists []. rewrite app_nil_r. auto. Qed.
Lemma sh_var x v y : next_free_var x = COk (v, y) -> shape 1 x y.
Proof.
  intros H. apply next_free_var_ok in H. destruct H as [E1 E2]. rewrite E2. constructor; auto; [apply with_frees_le|].
  exists [v]. auto.
Qed.
Lemma sh_pop n x v y : pop_vars n x = COk (v, y) -> shape n x y.
Proof.
  intros H. apply pop_vars_ok in H. destruct H as (E1 & E2 & E3). rewrite E3. constructor; auto; [apply with_frees_le|].
  exists v. auto.
Qed.
Lemma sh_closure s x s1 y : success_as_closure s x = (s1, y) -> shape 0 x y.
Proof.
  intros H. pose proof (success_as_closure_le s x) as L. rewrite H in L. simpl in L.
  unfold success_as_closure in H. destruct (0 <? ncomb x); injection H; intros <- <-;
    (constructor; auto; exists []; rewrite app_nil_r; auto).
Qed.
Lemma sh_optional s b x c y : optional_code s b x = (c, y) -> shape 0 x y.
Proof.
  unfold optional_code. destruct (next_mark x) as [m x1] eqn:E. intros H. injection H; intros <- <-.
  eapply sh_mark, E.
Qed.
Lemma sh_repeat k s f b x c y : repeat_code k s f b x = (c, y) -> shape 0 x y.
Proof.
  unfold repeat_code. destruct (next_mark x) as [m x1] eqn:E. destruct (0 <? k).
  - destruct (next_counter x1) as [m2 x2] eqn:E2. intros H. injection H; intros <- <-.
    eapply (@shape_trans 0 0); [eapply sh_mark, E|eapply sh_counter, E2].
  - intros H. injection H; intros <- <-. eapply sh_mark, E.
Qed.
(** A scope opened, used for something of any shape that consumed all its variables, and closed. *)
Lemma sh_scope k x sc x1 x2 x3 y (l : list name) : open_scope k x = (sc, x1) ->
  x2 = with_muts x1 l -> shape k x2 x3 -> close_scope sc x3 = COk y -> shape 0 x y.
Proof.
  intros H -> [] H2. apply close_scope_ok in H2. destruct H2 as [E ->].
  pose proof (open_scope_le k x) as L. rewrite H in L. simpl in L. injection H; intros <- <-. constructor; auto.
  - eapply ctx_le_trans; [|apply restore_scope_le]. eapply ctx_le_trans; [|exact sh_le0].
    eapply ctx_le_trans; [exact L|apply with_muts_le].
  - exists []. rewrite app_nil_r. auto.
Qed.
Lemma sh_span k x lo x1 r x2 x3 : next_mark x = (lo, x1) -> next_free_var_skip k x1 = COk (r, x2) ->
  shape k (push_mark lo x2) x3 -> shape (S k) x (pop_mark x3).
Proof.
  intros H1 H2 []. apply next_free_var_skip_ok in H2. destruct H2 as (a & b & F & L & ->).
  apply sh_mark in H1. destruct H1. constructor.
  - eapply ctx_le_trans; [exact sh_le1|]. eapply ctx_le_trans; [apply with_frees_le|].
    eapply ctx_le_trans; [apply with_marks_le|]. eapply ctx_le_trans; [exact sh_le0|apply with_marks_le].
  - simpl. rewrite sh_marks0. simpl. rewrite removelast_last. exact sh_marks1.
  - simpl. rewrite sh_muts0. exact sh_muts1.
  - destruct sh_frees0 as (xs & E1 & E2), sh_frees1 as (ys & E3 & E4). destruct ys; [|discriminate].
    rewrite app_nil_r in E3. simpl in E1. exists (r :: xs). split; [|simpl; congruence].
    assert (frees x3 = a /\ xs = b) as [Ha ->].
    { assert (length (frees x3) = length a).
      { apply (f_equal (@length _)) in E1. rewrite !app_length in E1. lia. }
      assert (firstn (length a) (a ++ b) = firstn (length a) (frees x3 ++ xs)) as K by (rewrite E1; reflexivity).
      rewrite firstn_app, firstn_all, Nat.sub_diag in K. cbn [firstn] in K. rewrite app_nil_r in K.
      rewrite <- H in K. rewrite firstn_app, firstn_all, Nat.sub_diag in K. cbn [firstn] in K. rewrite app_nil_r in K.
      subst a. split; [reflexivity|]. apply app_inv_head in E1. auto. }
    simpl. rewrite Ha, E3, F. reflexivity.
Qed.

Section Shape.
Variable G : grammar.

Definition shape_ih (comp : nat -> code -> ctx -> cres (code * ctx)) (m : mode) : Prop :=
  forall i s x c y, comp i s x = COk (c, y) -> shape (ncard G m i) x y.

Lemma compile_seq_shape comp m : shape_ih comp m -> forall l s x c y,
  compile_seq comp l s x = COk (c, y) -> shape (list_sum (map (ncard G m) l)) x y.
Proof.
  intros IH. induction l as [|i l IHl]; intros s x c y H; simpl in H.
  - injection H; intros <- <-. apply shape_refl.
  - inv_ok. apply IHl in E. apply IH in E0. simpl. apply shape_ncomb. eapply shape_trans; eassumption.
Qed.

Lemma compile_branches_shape comp m sc bf s n : shape_ih comp m -> forall l x bs y,
  Forall (fun j => ncard G m j = n) l ->
  compile_branches comp sc bf s l x = COk (bs, y) ->
  ctx_le x y /\ marks y = marks x /\ muts y = removelast (sc_muts sc)
  /\ exists xs, sc_frees sc = frees y ++ xs /\ length xs = n.
Proof.
  intros IH. induction l as [|i l IHl]; intros x bs y HF H; [discriminate|].
  inversion HF as [|? ? Hi HF']; subst. destruct l as [|j l].
  - cbn [compile_branches] in H. inv_ok. apply pop_mut_ok in E. destruct E as [_ ->]. apply IH in E0. destruct E0.
    split; [|split; [|split]].
    + eapply ctx_le_trans; [|eassumption]. eapply ctx_le_trans; [apply restore_scope_le|apply with_muts_le].
    + exact sh_marks0.
    + exact sh_muts0.
    + exact sh_frees0.
  - remember (j :: l) as jl eqn:Ejl. cbn [compile_branches] in H. rewrite Ejl in H.
    rewrite <- Ejl in H. inv_ok. apply IH in E. destruct E.
    specialize (IHl _ _ _ HF' E0). destruct IHl as (L & M1 & M2 & M3). split; [|split; [|split]].
    + eapply ctx_le_trans; [|exact L]. eapply ctx_le_trans; [|apply with_ncomb_le].
      eapply ctx_le_trans; [|eassumption]. apply restore_scope_le.
    + rewrite M1. exact sh_marks0.
    + exact M2.
    + exact M3.
Qed.

Lemma ncard_eff m i m1 : eff_mode G m i = COk m1 -> ncard G m1 i = ncard G m i.
Proof.
  destruct m; simpl; [intros H; injection H; intros <-; reflexivity|].
  unfold card. destruct (ty_of G i) as [t|] eqn:E; [|discriminate]. intros H. injection H; intros <-.
  destruct t; simpl; unfold card; rewrite ?E; reflexivity.
Qed.
Lemma eff_par m i : eff_mode G m i = COk Par -> m = Par /\ is_unit G i = false.
Proof.
  destruct m; simpl; [discriminate|]. unfold is_unit. destruct (ty_of G i) as [t|]; [|discriminate].
  destruct (ty_is_unit t); [discriminate|auto].
Qed.

Lemma ncard_rec l : list_sum (map (ncard G Rec) l) = 0.
Proof. induction l; simpl; auto. Qed.

Lemma compile_shape fuel : forall m i s x c y, cohm G m -> compile G fuel m i s x = COk (c, y) ->
  shape (ncard G m i) x y.
Proof.
  induction fuel as [|fuel IH]; intros m0 i s x c y HC H; [discriminate|].
  cbn [compile] in H. apply cbind_ok in H. destruct H as (m & Em & H).
  rewrite <- (ncard_eff Em).
  assert (HM : cohm G m) by (destruct m; [exact I|destruct (eff_par Em) as [-> _]; exact HC]).
  destruct (expr_of G i) as [e|] eqn:Ee; [|discriminate].
  assert (HE : m = Par -> coh_expr G i e).
  { intros ->. destruct (eff_par Em) as [-> Hu]. exact (HC i e Ee Hu). }
  clear Em Ee.
  destruct e as [lit| |cls|id|p|l|l|e|e|e|e|e|e bx f|e t|e|e].
  - inv_ok. destruct m; [apply shape_refl|]. destruct (HE eq_refl).
  - destruct m; inv_ok; [apply shape_refl|]. simpl. rewrite (HE eq_refl). eapply sh_var, E.
  - inv_ok. destruct m; inv_ok.
    + eapply sh_mark; eassumption.
    + simpl. rewrite (HE eq_refl). eapply (@shape_trans 1 0); [eapply sh_var; eassumption|eapply sh_mark; eassumption].
  - destruct m; inv_ok; [apply shape_refl|]. eapply sh_pop; eassumption.
  - destruct m; inv_ok; [apply shape_refl|]. eapply sh_pop; eassumption.
  - apply (@compile_seq_shape _ m) in H; [|intros ? ? ? ? ? K; eapply IH; eassumption].
    destruct m; [rewrite ncard_rec in H; exact H|]. simpl. pose proof (HE eq_refl) as HE'. simpl in HE'.
    rewrite HE'. exact H.
  - destruct (success_as_closure s x) as [s1 x1] eqn:Es.
    destruct (next_mark x1) as [mk x2] eqn:E2. destruct (next_branch x2) as [bf x3] eqn:E3.
    apply cbind_ok in H. destruct H as ([bs y'] & E & H). destruct bs as [|b r]; [discriminate|].
    injection H; intros <- <-. clear H.
    apply (@compile_branches_shape _ m) with (n := ncard G m i) in E.
    + destruct E as (L & M1 & M2 & xs & M3 & M4). simpl in M2, M3, M1.
      pose proof (shape_trans (sh_closure Es) (shape_trans (sh_mark E2) (sh_branch E3))) as [].
      destruct sh_frees0 as (ys & F1 & F2). destruct ys; [|discriminate]. rewrite app_nil_r in F1.
      constructor.
      * eapply ctx_le_trans; [exact sh_le0|]. eapply ctx_le_trans; [|exact L]. apply with_muts_le.
      * congruence.
      * rewrite M2, removelast_last. congruence.
      * exists xs. rewrite F1. auto.
    + intros ? ? ? ? ? K; eapply IH; eassumption.
    + destruct m; [apply Forall_forall; reflexivity|]. exact (HE eq_refl).
  - destruct m.
    + inv_ok. eapply (@shape_trans 0 0); [|eapply sh_repeat; eassumption].
      apply shape_ncomb. exact (IH Rec _ _ _ _ _ I E0).
    + simpl. rewrite (HE eq_refl). inv_ok. pose proof (IH Par _ _ _ _ _ HM E1) as S1.
      match type of S1 with shape _ _ ?z => apply (shape_ncomb (S (ncomb z))) in S1 end.
      eapply (@shape_trans 1 0); [eapply sh_var; eassumption|].
      eapply (@shape_trans 0 0); [eapply sh_scope; [eassumption|reflexivity|exact S1|eassumption]|eapply sh_repeat; eassumption].
  - destruct m.
    + inv_ok. eapply (@shape_trans 0 0); [|eapply sh_repeat; eassumption].
      apply shape_ncomb. exact (IH Rec _ _ _ _ _ I E0).
    + simpl. rewrite (HE eq_refl). inv_ok. pose proof (IH Par _ _ _ _ _ HM E1) as S1.
      match type of S1 with shape _ _ ?z => apply (shape_ncomb (S (ncomb z))) in S1 end.
      eapply (@shape_trans 1 0); [eapply sh_var; eassumption|].
      eapply (@shape_trans 0 0); [eapply sh_scope; [eassumption|reflexivity|exact S1|eassumption]|eapply sh_repeat; eassumption].
  - destruct m.
    + inv_ok. eapply (@shape_trans 0 0); [|eapply sh_optional; eassumption].
      apply shape_ncomb. exact (IH Rec _ _ _ _ _ I E0).
    + simpl. rewrite (HE eq_refl). inv_ok. pose proof (IH Par _ _ _ _ _ HM E1) as S1.
      match type of S1 with shape _ _ ?z => apply (shape_ncomb (S (ncomb z))) in S1 end.
      eapply (@shape_trans 1 0); [eapply sh_var; eassumption|].
      eapply (@shape_trans 0 0); [eapply sh_scope; [eassumption|reflexivity|exact S1|eassumption]|eapply sh_optional; eassumption].
  - destruct m; [|discriminate]. inv_ok.
    eapply (@shape_trans 0 0); [eapply sh_mark; eassumption|]. apply shape_ncomb. exact (IH Rec _ _ _ _ _ I E0).
  - destruct m; [|discriminate]. inv_ok.
    eapply (@shape_trans 0 0); [eapply sh_mark; eassumption|]. apply shape_ncomb. exact (IH Rec _ _ _ _ _ I E0).
  - destruct m; [exact (IH Rec _ _ _ _ _ I H)|]. simpl. rewrite (HE eq_refl). inv_ok.
    pose proof (IH Par _ _ _ _ _ HM E1) as S1. match type of S1 with shape _ _ ?z => apply (shape_ncomb (S (ncomb z))) in S1 end.
    eapply (@shape_trans 1 0); [eapply sh_var; eassumption|].
    match type of S1 with shape _ ?z _ => eapply sh_scope with (l := muts z) (x2 := z); [eassumption|destruct z; reflexivity|exact S1|eassumption] end.
  - apply IH in H; [|exact HM]. destruct m; [exact H|]. simpl in *. rewrite <- (HE eq_refl). exact H.
  - destruct m; [exact (IH Rec _ _ _ _ _ I H)|]. simpl. rewrite (HE eq_refl). inv_ok.
    pose proof (IH Par _ _ _ _ _ HM E1) as S1. match type of S1 with shape _ _ ?z => apply (shape_ncomb (S (ncomb z))) in S1 end.
    eapply sh_span; eassumption.
  - destruct m; [exact (IH Rec _ _ _ _ _ I H)|]. simpl. rewrite (HE eq_refl). inv_ok.
    pose proof (IH Par _ _ _ _ _ HM E1) as S1. match type of S1 with shape _ _ ?z => apply (shape_ncomb (S (ncomb z))) in S1 end.
    eapply sh_span; eassumption.
Qed.
End Shape.
