(** Which generated functions assign or borrow a parameter of type [&mut T] (RustcCheck.v): an exact
    criterion on the expressions of the grammar. *)
From Verif Require Import Base Grammar PegSpec Target Compile TargetFacts ScopeFacts CompileShape RustcCheck.
Set Implicit Arguments. Unset Strict Implicit.

(** ---------------- the criterion ---------------- *)
Section Criterion.
Variable G : grammar.

(** The unit expressions of a parser are compiled as recognizers. *)
Definition mode_at (m : mode) (i : nat) : mode :=
  match m with Rec => Rec | Par => if is_unit G i then Rec else Par end.

(** Three facts about the place of an expression:
    [p]: something of the same scope follows it, so that a choice turns what follows into a closure;
    [h]: the scope has mutable variables (flags of the enclosing choices, the value of an option or
    of a list under construction), which closures receive as [&mut] parameters;
    [st]: what follows assigns or borrows one of them.
    [reaches p h st i]: the code of [i] and of what follows assigns or borrows one of them. *)
Section Seq.
Variable A : Type.
Variable f : bool -> bool -> bool -> A -> bool.
Fixpoint seq_reaches (p h st : bool) (l : list A) : bool :=
  match l with
  | [] => st
  | [i] => f p h st i
  | i :: r => f true h (seq_reaches p h st r) i
  end.
Variable g : bool -> bool -> bool -> A -> bool.
Fixpoint seq_fits (p h st : bool) (l : list A) : bool :=
  match l with
  | [] => true
  | [i] => g p h st i
  | i :: r => seq_fits p h st r && g true h (seq_reaches p h st r) i
  end.
(** All branches but the last assign the flag of the choice. *)
Fixpoint alt_fits (h st : bool) (l : list A) : bool :=
  match l with
  | [] => true
  | [i] => g false h st i
  | i :: r => g false true true i && alt_fits h st r
  end.
End Seq.

Fixpoint reaches (fuel : nat) (m : mode) (p h st : bool) (i : nat) : bool :=
  match fuel with
  | 0 => st
  | S n =>
    match expr_of G i with
    | None => st
    | Some e =>
      match e, mode_at m i with
      | (EStr _ | EAny | EClass _ | ENT _ | EExt _), _ => st
      | ESeq l, m => seq_reaches (reaches n m) p h st l
      | EAlt l, m => existsb (reaches n m false h (if p then h else st)) l
      | (EOpt j | EStar j | EPlus j), Rec | (ENot j | EAnd j), _ => reaches n Rec p h false j || st
      | (EOpt _ | EStar _ | EPlus _), Par => st
      | EAct j _ _, Rec => reaches n Rec p h st j
      | EAct j _ _, Par => reaches n Par false false st j
      | (EAsc j _ | ESpan j | ERange j), m => reaches n m p h st j
      end
    end
  end.

(** [fits p h st i]: no closure made for a choice of [i] assigns or borrows its [&mut] parameters.
    The body of a predicate, and of an option or repetition without value, is followed by nothing;
    the scope of an option assigns its value at the end; the scope of a list only pushes. *)
Fixpoint fits (fuel : nat) (m : mode) (p h st : bool) (i : nat) : bool :=
  match fuel with
  | 0 => true
  | S n =>
    match expr_of G i with
    | None => true
    | Some e =>
      match e, mode_at m i with
      | (EStr _ | EAny | EClass _ | ENT _ | EExt _), _ => true
      | ESeq l, m => seq_fits (reaches n m) (fits n m) p h st l
      | EAlt l, m => negb (p && st) && alt_fits (fits n m) h (if p then h else st) l
      | (EOpt j | EStar j | EPlus j), Rec | (ENot j | EAnd j), _ => fits n Rec p h false j
      | EOpt j, Par => fits n Par false true true j
      | (EStar j | EPlus j), Par => fits n Par false true false j
      | EAct j _ _, Rec => fits n Rec p h st j
      | EAct j _ _, Par => fits n Par false false false j
      | (EAsc j _ | ESpan j | ERange j), m => fits n m p h st j
      end
    end
  end.

Definition rule_refs (m : mode) (rl : rule) : bool :=
  match m with
  | Par => if is_unit G (rexpr rl) then true else fits (gen_fuel G) Par false false false (rexpr rl)
  | Rec => fits (gen_fuel G) Rec false false false (rexpr rl)
  end.
End Criterion.

(** ---------------- lists of names ---------------- *)
Definition disj (a b : list name) : Prop := forall n, In n a -> ~ In n b.
Lemma apart_spec a b : apart a b = true <-> disj a b.
Proof.
  unfold apart, disj. rewrite forallb_forall. split; intros H n Hn.
  - specialize (H n Hn). intros K. apply mem_In in K. rewrite K in H. discriminate.
  - destruct (mem n b) eqn:E; [|reflexivity]. exfalso. apply (H n Hn), mem_In, E.
Qed.
Lemma not_mem n l : ~ In n l -> mem n l = false.
Proof. intros H. destruct (mem n l) eqn:E; [|reflexivity]. exfalso. apply H, mem_In, E. Qed.
Lemma drop_none n l : ~ In n l -> drop n l = l.
Proof.
  induction l as [|a l IH]; intros H; [reflexivity|]. cbn [drop filter]. destruct (name_eqb n a) eqn:E.
  - apply name_eqb_eq in E. subst a. exfalso. apply H. left. reflexivity.
  - cbn [negb]. f_equal. apply IH. intros K. apply H. right. exact K.
Qed.
Lemma drops_none xs : forall l, disj l xs -> drops xs l = l.
Proof.
  induction xs as [|x xs IH]; intros l H; [reflexivity|]. cbn [drops]. rewrite drop_none.
  - apply IH. intros n Hn K. apply (H n Hn). right. exact K.
  - intros K. apply (H x K). left. reflexivity.
Qed.
Lemma apart_app a b c : apart (a ++ b) c = apart a c && apart b c.
Proof. apply forallb_app. Qed.
Lemma through_nil c : through [] c = true.
Proof.
  assert (D : forall xs, drops xs [] = []) by (induction xs; auto).
  induction c; cbn [through]; try reflexivity; cbn; rewrite ?D; try assumption; try (rewrite IHc1, IHc2; reflexivity).
  - apply forallb_forall. reflexivity.
  - destruct x; cbn; rewrite IHc1, IHc2; reflexivity.
Qed.

Lemma old_app x a b : Forall (old x) a -> Forall (old x) b -> Forall (old x) (a ++ b).
Proof. intros. apply Forall_app. auto. Qed.
Lemma olds_le x y l : ctx_le x y -> Forall (old x) l -> Forall (old y) l.
Proof. intros L H. eapply Forall_impl; [|exact H]. intros n. apply old_le, L. Qed.
Lemma fresh_disj x l k n : Forall (old x) l -> prefix_uid x <= k -> ~ In (NVar k n) l.
Proof. intros H L K. rewrite Forall_forall in H. apply H in K. cbn in K. lia. Qed.
Lemma fresh_vars_disj x l k n : Forall (old x) l -> prefix_uid x <= k -> disj l (map (NVar k) (seq 0 n)).
Proof.
  intros H L v Hv K. apply in_map_iff in K. destruct K as (j & <- & _). exact (fresh_disj H L Hv).
Qed.
Lemma disj_app_r a b c : disj a (b ++ c) -> disj a b.
Proof. intros H n Hn K. apply (H n Hn), in_or_app. auto. Qed.
Lemma disj_in a b n : disj a b -> In n b -> ~ In n a.
Proof. intros H Hn K. exact (H n K Hn). Qed.

Definition tab_ok (cl : ctable) : bool := forallb (fun k => through (kmuts (snd k)) (kbody (snd k))) cl.
Definition nonempty (l : list name) : bool := match l with [] => false | _ => true end.
Lemma apart_self l : apart l l = negb (nonempty l).
Proof.
  destruct l as [|a l]; [reflexivity|]. cbn [nonempty negb]. destruct (apart (a :: l) (a :: l)) eqn:E; [|reflexivity].
  apply apart_spec in E. exfalso. apply (E a); left; reflexivity.
Qed.

(** ---------------- exactness ---------------- *)
Section Exact.
Variable G : grammar.

Definition exact (comp : nat -> code -> ctx -> cres (code * ctx)) (re fi : bool -> bool -> bool -> nat -> bool) : Prop :=
  forall i s x c y, comp i s x = COk (c, y) ->
  (forall R, Forall (old x) R -> disj R (frees x) ->
     through R c = negb (re (0 <? ncomb x) (negb (apart (muts x) R)) (negb (through R s)) i)) /\
  (Forall (old x) (muts x) -> Forall (old x) (frees x) -> disj (muts x) (frees x) ->
     tab_ok (closures y) = tab_ok (closures x) && fi (0 <? ncomb x) (nonempty (muts x)) (negb (through (muts x) s)) i).

Lemma sub_frees m x y i : shape (ncard G m i) x y -> incl (frees y) (frees x).
Proof. intros [_ _ _ (xs & -> & _)]. apply incl_appl, incl_refl. Qed.
Lemma disj_sub a b c : disj a b -> incl c b -> disj a c.
Proof. intros H I n Hn K. exact (H n Hn (I n K)). Qed.

Lemma seq_exact comp m re fi : shape_ih G comp m -> exact comp re fi -> forall l s x c y, compile_seq comp l s x = COk (c, y) ->
  (l <> [] -> 0 <? ncomb y = true) /\
  (forall R, Forall (old x) R -> disj R (frees x) ->
     through R c = negb (seq_reaches re (0 <? ncomb x) (negb (apart (muts x) R)) (negb (through R s)) l)) /\
  (Forall (old x) (muts x) -> Forall (old x) (frees x) -> disj (muts x) (frees x) ->
     tab_ok (closures y) = tab_ok (closures x) && seq_fits re fi (0 <? ncomb x) (nonempty (muts x)) (negb (through (muts x) s)) l).
Proof.
  intros HS HX. induction l as [|i l IH]; intros s x c y H.
  - cbn [compile_seq] in H. apply COk_inj, pair_inj in H. destruct H as [<- <-]. split; [congruence|].
    split; [intros; cbn; rewrite negb_involutive; reflexivity|intros; cbn; rewrite andb_true_r; reflexivity].
  - cbn [compile_seq] in H. apply cbind_ok in H. destruct H as ([s1 x1] & E1 & H).
    apply cbind_ok in H. destruct H as ([c2 x2] & E2 & H). apply COk_inj, pair_inj in H. destruct H as [<- <-].
    split; [reflexivity|]. cbn [closures with_ncomb].
    pose proof (compile_seq_shape HS E1) as Sh. assert (IF : incl (frees x1) (frees x)) by (destruct (sh_frees Sh) as (xs & -> & _); apply incl_appl, incl_refl).
    destruct (IH _ _ _ _ E1) as (P1 & R1 & T1). destruct (HX _ _ _ _ _ E2) as (R2 & T2).
    split.
    + intros R HR HD. assert (HR1 : Forall (old x1) R) by (eapply olds_le; [apply (sh_le Sh)|exact HR]).
      rewrite (R2 R HR1 (disj_sub HD IF)), (R1 R HR HD), negb_involutive, (sh_muts Sh). destruct l as [|j l].
      * cbn [compile_seq] in E1. apply COk_inj, pair_inj in E1. destruct E1 as [<- <-]. reflexivity.
      * rewrite (P1 ltac:(discriminate)). reflexivity.
    + intros HM HF HD. assert (HM1 : Forall (old x1) (muts x1)) by (rewrite (sh_muts Sh); eapply olds_le; [apply (sh_le Sh)|exact HM]).
      assert (HF1 : Forall (old x1) (frees x1)).
      { apply Forall_forall. intros n Hn. rewrite Forall_forall in HF. eapply old_le; [apply (sh_le Sh)|]. apply HF, IF, Hn. }
      rewrite (T2 HM1 HF1) by (rewrite (sh_muts Sh); exact (disj_sub HD IF)). rewrite (T1 HM HF HD), (sh_muts Sh), (R1 _ HM HD), negb_involutive.
      rewrite apart_self, negb_involutive. destruct l as [|j l].
      * cbn [compile_seq] in E1. apply COk_inj, pair_inj in E1. destruct E1 as [<- <-]. cbn. rewrite andb_true_r. reflexivity.
      * rewrite (P1 ltac:(discriminate)). cbn [seq_fits]. rewrite <- andb_assoc. reflexivity.
Qed.

Lemma meets_snoc ms bf R : ~ In bf R -> apart (ms ++ [bf]) R = apart ms R.
Proof. intros H. rewrite apart_app. cbn. rewrite (not_mem H). cbn. rewrite andb_true_r. reflexivity. Qed.

Lemma branches_exact comp m re fi : shape_ih G comp m -> exact comp re fi ->
  forall l x0 ms bf s x bs y, compile_branches comp (save_scope x0) bf s l x = COk (bs, y) ->
    ctx_le x0 x -> muts x0 = ms ++ [bf] -> ncomb x0 = 0 ->
    (forall R, Forall (old x0) R -> disj R (frees x0) -> ~ In bf R ->
      forallb (through R) bs = negb (existsb (re false (negb (apart ms R)) (negb (through R s))) l)) /\
    (Forall (old x0) (ms ++ [bf]) -> Forall (old x0) (frees x0) -> disj (ms ++ [bf]) (frees x0) ->
      tab_ok (closures y) = tab_ok (closures x) && alt_fits fi (nonempty ms) (negb (through ms s)) l).
Proof.
  intros HS HX. induction l as [|i l IH]; intros x0 ms bf s x bs y H L Ms Nc; [discriminate|]. destruct l as [|j l].
  - cbn [compile_branches] in H. apply cbind_ok in H. destruct H as (x1 & Ep & H).
    apply pop_mut_ok in Ep. destruct Ep as [_ Ep]. simpl in Ep. rewrite Ms, removelast_last in Ep.
    apply cbind_ok in H. destruct H as ([c y'] & Ec & H). apply COk_inj, pair_inj in H. destruct H as [<- ->].
    assert (L1 : ctx_le x0 x1) by (rewrite Ep; eapply ctx_le_trans; [exact L|]; eapply ctx_le_trans; [apply restore_scope_le|apply with_muts_le]).
    assert (F1 : frees x1 = frees x0) by (rewrite Ep; reflexivity).
    assert (M1 : muts x1 = ms) by (rewrite Ep; reflexivity).
    assert (N1 : ncomb x1 = 0) by (rewrite Ep; exact Nc).
    assert (C1 : closures x1 = closures x) by (rewrite Ep; reflexivity).
    destruct (HX _ _ _ _ _ Ec) as (R2 & T2). rewrite F1, M1, N1, C1 in *. split.
    + intros R HR HD HB. cbn [forallb existsb]. rewrite (R2 R (olds_le L1 HR) HD). cbn. rewrite andb_true_r, orb_false_r. reflexivity.
    + intros HM HF HD. apply Forall_app in HM. destruct HM as [HM _]. rewrite T2; [reflexivity|exact (olds_le L1 HM)|exact (olds_le L1 HF)|].
      intros n Hn. apply HD, in_or_app. auto.
  - remember (j :: l) as jl eqn:Ejl. cbn [compile_branches] in H. rewrite Ejl in H. rewrite <- Ejl in H.
    apply cbind_ok in H. destruct H as ([c x1] & Ec & H). apply cbind_ok in H. destruct H as ([cs y'] & Es & H).
    apply COk_inj, pair_inj in H. destruct H as [<- ->].
    pose proof (HS _ _ _ _ _ Ec) as Sh.
    assert (L0 : ctx_le x0 (restore_scope (save_scope x0) x)) by (eapply ctx_le_trans; [exact L|apply restore_scope_le]).
    assert (L1 : ctx_le x0 (with_ncomb x1 (S (ncomb x1)))).
    { eapply ctx_le_trans; [exact L0|]. eapply ctx_le_trans; [apply (sh_le Sh)|apply with_ncomb_le]. }
    destruct (HX _ _ _ _ _ Ec) as (R2 & T2). cbn [frees muts ncomb closures restore_scope with_ncomb with_muts with_frees sc_frees sc_muts sc_ncomb save_scope] in R2, T2.
    rewrite Nc, Ms in R2, T2. destruct (IH _ _ _ _ _ _ _ Es L1 Ms Nc) as (R3 & T3). cbn [closures with_ncomb] in T3. split.
    + intros R HR HD HB. cbn [forallb existsb]. rewrite (R3 R HR HD HB), (R2 R (olds_le L0 HR) HD). cbn [through].
      rewrite (not_mem HB), (meets_snoc ms HB). cbn [negb andb Nat.ltb Nat.leb]. rewrite negb_orb. reflexivity.
    + intros HM HF HD. rewrite (T3 HM HF HD), (T2 (olds_le L0 HM) (olds_le L0 HF) HD).
      assert (N : nonempty (ms ++ [bf]) = true) by (destruct ms; reflexivity). rewrite N. cbn [through].
      assert (B : mem bf (ms ++ [bf]) = true) by (apply mem_In, in_or_app; right; left; reflexivity). rewrite B, Ejl. cbn [negb andb Nat.ltb Nat.leb alt_fits].
      rewrite <- andb_assoc. reflexivity.
Qed.

Lemma choice_through R bf mk bs : ~ In bf R -> through R (choice_code bf mk bs) = forallb (through R) bs.
Proof.
  intros H. induction bs as [|b bs IH]; [reflexivity|]. cbn [choice_code through forallb]. rewrite IH, (not_mem H). cbn. rewrite andb_true_r. reflexivity.
Qed.

Lemma reaches_none fuel : forall m p i, reaches G fuel m p false false i = false.
Proof.
  induction fuel as [|n IH]; intros m p i; [reflexivity|]. cbn [reaches]. destruct (expr_of G i) as [e|]; [|reflexivity].
  assert (K : (if p then false else false) = false) by (destruct p; reflexivity).
  destruct e; destruct (mode_at G m i); try reflexivity; rewrite ?IH; auto.
  - clear K. revert p. induction l as [|j l IHl]; intros p; [reflexivity|]. cbn [seq_reaches]. destruct l; [apply IH|]. rewrite IHl. apply IH.
  - clear K. revert p. induction l as [|j l IHl]; intros p; [reflexivity|]. cbn [seq_reaches]. destruct l; [apply IH|]. rewrite IHl. apply IH.
  - rewrite K. clear K. induction l as [|j l IHl]; [reflexivity|]. cbn [existsb]. rewrite IH, IHl. reflexivity.
  - rewrite K. clear K. induction l as [|j l IHl]; [reflexivity|]. cbn [existsb]. rewrite IH, IHl. reflexivity.
Qed.

Lemma mode_at_eff m i m1 : eff_mode G m i = COk m1 -> mode_at G m i = m1.
Proof.
  destruct m; cbn; [intros H; injection H as <-; reflexivity|]. unfold is_unit. destruct (ty_of G i) as [t|]; [|discriminate].
  intros H. injection H as <-. reflexivity.
Qed.

Lemma mark_disj x R : Forall (old x) R -> ~ In (NMark (S (mark_uid x))) R.
Proof. intros H K. rewrite Forall_forall in H. apply H in K. cbn in K. lia. Qed.
Lemma branch_disj x R : Forall (old x) R -> ~ In (NBranch (S (branch_uid x))) R.
Proof. intros H K. rewrite Forall_forall in H. apply H in K. cbn in K. lia. Qed.
Lemma counter_disj x R : Forall (old x) R -> ~ In (NCounter (S (counter_uid x))) R.
Proof. intros H K. rewrite Forall_forall in H. apply H in K. cbn in K. lia. Qed.
Lemma nx_disj x R : Forall (old x) R -> ~ In NX R.
Proof. intros H K. rewrite Forall_forall in H. apply H in K. exact K. Qed.

Lemma through_optional R s body x c y : optional_code s body x = (c, y) -> Forall (old x) R ->
  through R c = through R body && through R s /\ closures y = closures x.
Proof.
  intros H HR. apply pair_inj in H. destruct H as [<- <-]. cbn [through closures]. rewrite (drop_none (mark_disj HR)). auto.
Qed.
Lemma through_repeat R k s body x c y : repeat_code k s CFailure body x = (c, y) -> Forall (old x) R ->
  through R c = through R body && through R s /\ closures y = closures x.
Proof.
  intros H HR. unfold repeat_code in H. cbn [next_mark] in H. destruct (0 <? k).
  - apply pair_inj in H. destruct H as [<- <-]. cbn [through closures]. rewrite (drop_none (mark_disj HR)).
    rewrite drop_none; [auto|exact (counter_disj HR)].
  - apply pair_inj in H. destruct H as [<- <-]. cbn [through closures]. rewrite (drop_none (mark_disj HR)). auto.
Qed.

Definition stores (r : name) (opt : bool) (l : list name) : code :=
  if opt then CSetSome r l CState else CPush r l CState.

(** The scope of an option or of a list. *)
Lemma scope_exact fuel e x r x1 sc x2 opt body x4 x5 : coherent G ->
  exact (compile G fuel Par) (reaches G fuel Par) (fits G fuel Par) ->
  next_free_var x = COk (r, x1) -> open_scope (card G e) x1 = (sc, x2) ->
  compile G fuel Par e (stores r opt (frees (push_mut r x2))) (push_mut r x2) = COk (body, x4) ->
  close_scope sc (with_ncomb x4 (S (ncomb x4))) = COk x5 ->
  ctx_le x x5 /\
  (forall R, Forall (old x) R -> disj R (frees x) -> through R body = true) /\
  (Forall (old x) (frees x) -> tab_ok (closures x5) = tab_ok (closures x) && fits G fuel Par false true opt e).
Proof.
  intros HC IH Er Eo Ec Ex. apply next_free_var_ok in Er. destruct Er as [F E1].
  pose proof (compile_shape (m := Par) HC Ec) as Sh. apply close_scope_ok in Ex. destruct Ex as [Fy Ex].
  pose proof (open_scope_le (card G e) x1) as Lo. rewrite Eo in Lo. cbn [snd] in Lo.
  apply pair_inj in Eo. destruct Eo as [Es E2].
  assert (M3 : muts (push_mut r x2) = [r]) by (rewrite <- E2; reflexivity).
  assert (N3 : ncomb (push_mut r x2) = 0) by (rewrite <- E2; reflexivity).
  assert (T3 : closures (push_mut r x2) = closures x) by (rewrite <- E2, E1; reflexivity).
  assert (F3 : frees (push_mut r x2) = map (NVar (prefix_uid x)) (seq 0 (card G e))) by (rewrite <- E2, E1; reflexivity).
  assert (P3 : prefix_uid (push_mut r x2) = S (prefix_uid x)) by (rewrite <- E2, E1; reflexivity).
  assert (L3 : ctx_le x (push_mut r x2)).
  { eapply ctx_le_trans; [|apply with_muts_le]. eapply ctx_le_trans; [|exact Lo]. rewrite E1. apply with_frees_le. }
  destruct (IH _ _ _ _ _ Ec) as (RI & TI). rewrite M3, N3, T3, F3 in *. split; [|split].
  - eapply ctx_le_trans; [exact L3|]. eapply ctx_le_trans; [apply (sh_le Sh)|]. eapply ctx_le_trans; [apply with_ncomb_le|]. rewrite Ex. apply restore_scope_le.
  - intros R HR HD. assert (Hr : ~ In r R) by (intros K; apply (HD r K); rewrite F; apply in_or_app; right; left; reflexivity).
    rewrite RI; [|eapply olds_le; eassumption|apply (fresh_vars_disj (x := x)); [exact HR|lia]].
    assert (A : apart [r] R = true) by (cbn; rewrite (not_mem Hr); reflexivity). rewrite A.
    assert (S0 : through R (stores r opt (map (NVar (prefix_uid x)) (seq 0 (card G e)))) = true) by (destruct opt; cbn; rewrite ?(not_mem Hr); reflexivity).
    rewrite S0. cbn [negb]. rewrite reaches_none. reflexivity.
  - intros HF. assert (Hr : Forall (old x) [r]) by (constructor; [|constructor]; rewrite Forall_forall in HF; apply HF; rewrite F; apply in_or_app; right; left; reflexivity).
    rewrite Ex. cbn [closures restore_scope with_ncomb with_muts with_frees]. rewrite TI.
    + cbn [nonempty Nat.ltb Nat.leb]. f_equal. f_equal. destruct opt; cbn; [|reflexivity]. rewrite name_eqb_refl. reflexivity.
    + eapply olds_le; eassumption.
    + apply Forall_forall. intros n Hn. apply in_map_iff in Hn. destruct Hn as (k & <- & _). change (prefix_uid x < prefix_uid (push_mut r x2)). rewrite P3. lia.
    + apply (fresh_vars_disj (x := x)); [exact Hr|lia].
Qed.

Lemma span_exact fuel rg e x lo x1 r x2 s body x3 : coherent G ->
  exact (compile G fuel Par) (reaches G fuel Par) (fits G fuel Par) ->
  next_mark x = (lo, x1) -> next_free_var_skip (card G e) x1 = COk (r, x2) ->
  compile G fuel Par e (CLetSpan r rg lo s) (push_mark lo x2) = COk (body, x3) ->
  (forall R, Forall (old x) R -> disj R (frees x) ->
     through R (CLetMark lo body) = negb (reaches G fuel Par (0 <? ncomb x) (negb (apart (muts x) R)) (negb (through R s)) e)) /\
  (Forall (old x) (muts x) -> Forall (old x) (frees x) -> disj (muts x) (frees x) ->
     tab_ok (closures (pop_mark (with_ncomb x3 (S (ncomb x3))))) = tab_ok (closures x) && fits G fuel Par (0 <? ncomb x) (nonempty (muts x)) (negb (through (muts x) s)) e).
Proof.
  intros HC IH Em Er Ec. apply next_free_var_skip_ok in Er. destruct Er as (a & b & F & Lb & E2).
  apply pair_inj in Em. destruct Em as [El E1].
  assert (F' : frees x = a ++ [r] ++ b) by (rewrite <- F, <- E1; reflexivity).
  assert (Hr : In r (frees x)) by (rewrite F'; apply in_or_app; right; left; reflexivity).
  assert (IF : incl (a ++ b) (frees x)) by (rewrite F'; intros n Hn; apply in_app_or in Hn; apply in_or_app; destruct Hn; [auto|right; right; assumption]).
  assert (L2 : ctx_le x (push_mark lo x2)).
  { rewrite E2, <- E1. eapply ctx_le_trans; [apply fresh_mark_le|]. eapply ctx_le_trans; [|apply with_marks_le]. apply with_frees_le. }
  destruct (IH _ _ _ _ _ Ec) as (RI & TI).
  assert (M2 : muts (push_mark lo x2) = muts x) by (rewrite E2, <- E1; reflexivity).
  assert (N2 : ncomb (push_mark lo x2) = ncomb x) by (rewrite E2, <- E1; reflexivity).
  assert (F2 : frees (push_mark lo x2) = a ++ b) by (rewrite E2; reflexivity).
  assert (T2 : closures (push_mark lo x2) = closures x) by (rewrite E2, <- E1; reflexivity).
  rewrite M2, N2, F2, T2 in *. split.
  - intros R HR HD. cbn [through]. rewrite <- El, (drop_none (mark_disj HR)). rewrite RI; [|eapply olds_le; eassumption|exact (disj_sub HD IF)].
    cbn [through]. rewrite drop_none; [reflexivity|exact (disj_in HD Hr)].
  - intros HM HF HD. cbn [closures pop_mark with_marks with_ncomb]. rewrite TI.
    + cbn [through]. rewrite drop_none; [reflexivity|exact (disj_in HD Hr)].
    + eapply olds_le; eassumption.
    + eapply olds_le; [exact L2|]. apply Forall_forall. intros n Hn. rewrite Forall_forall in HF. apply HF, IF, Hn.
    + exact (disj_sub HD IF).
Qed.

Lemma compile_exact fuel : forall m, cohm G m -> exact (compile G fuel m) (reaches G fuel m) (fits G fuel m).
Proof.
  induction fuel as [|fuel IH]; intros m0 HC i s x c y H; [discriminate|].
  cbn [compile] in H. apply cbind_ok in H. destruct H as (m & Em & H).
  assert (HM : cohm G m) by (destruct m; [exact I|destruct (eff_par Em) as [-> _]; exact HC]).
  destruct (expr_of G i) as [e|] eqn:Ee; [|discriminate].
  assert (HE : m = Par -> coh_expr G i e).
  { intros ->. destruct (eff_par Em) as [-> Hu]. exact (HC i e Ee Hu). }
  assert (Eq1 : forall p h st, reaches G (S fuel) m0 p h st i = match e, m with
      | (EStr _ | EAny | EClass _ | ENT _ | EExt _), _ => st
      | ESeq l, m => seq_reaches (reaches G fuel m) p h st l
      | EAlt l, m => existsb (reaches G fuel m false h (if p then h else st)) l
      | (EOpt j | EStar j | EPlus j), Rec | (ENot j | EAnd j), _ => reaches G fuel Rec p h false j || st
      | (EOpt _ | EStar _ | EPlus _), Par => st
      | EAct j _ _, Rec => reaches G fuel Rec p h st j
      | EAct j _ _, Par => reaches G fuel Par false false st j
      | (EAsc j _ | ESpan j | ERange j), m => reaches G fuel m p h st j
      end) by (intros; cbn [reaches]; rewrite Ee, (mode_at_eff Em); reflexivity).
  assert (Eq2 : forall p h st, fits G (S fuel) m0 p h st i = match e, m with
      | (EStr _ | EAny | EClass _ | ENT _ | EExt _), _ => true
      | ESeq l, m => seq_fits (reaches G fuel m) (fits G fuel m) p h st l
      | EAlt l, m => negb (p && st) && alt_fits (fits G fuel m) h (if p then h else st) l
      | (EOpt j | EStar j | EPlus j), Rec | (ENot j | EAnd j), _ => fits G fuel Rec p h false j
      | EOpt j, Par => fits G fuel Par false true true j
      | (EStar j | EPlus j), Par => fits G fuel Par false true false j
      | EAct j _ _, Rec => fits G fuel Rec p h st j
      | EAct j _ _, Par => fits G fuel Par false false false j
      | (EAsc j _ | ESpan j | ERange j), m => fits G fuel m p h st j
      end) by (intros; cbn [fits]; rewrite Ee, (mode_at_eff Em); reflexivity).
  pose proof (IH m HM) as IHm. pose proof (IH Rec I) as IHr.
  assert (HSh : shape_ih G (compile G fuel m) m) by (intros ? ? ? ? ? K; eapply compile_shape; eassumption).
  assert (HSr : shape_ih G (compile G fuel Rec) Rec) by (intros ? ? ? ? ? K; eapply compile_shape; [exact I|eassumption]).
  setoid_rewrite Eq1. setoid_rewrite Eq2. clear Eq1 Eq2.
  (* the body of a predicate, option or repetition without value *)
  assert (HB : forall j x body x1, compile G fuel Rec j CState x = COk (body, x1) ->
     ctx_le x x1 /\ frees x1 = frees x /\ (forall R, Forall (old x) R -> disj R (frees x) -> through R body = negb (reaches G fuel Rec (0 <? ncomb x) (negb (apart (muts x) R)) false j)) /\
     (Forall (old x) (muts x) -> Forall (old x) (frees x) -> disj (muts x) (frees x) ->
     tab_ok (closures x1) = tab_ok (closures x) && fits G fuel Rec (0 <? ncomb x) (nonempty (muts x)) false j)).
  { intros j x' body x1 E. destruct (IHr _ _ _ _ _ E) as [A B]. pose proof (HSr _ _ _ _ _ E) as Sh. split; [apply (sh_le Sh)|].
    split; [|split; [intros R HR HD; rewrite (A R HR HD); reflexivity|intros H1 H2 H3; rewrite (B H1 H2 H3); reflexivity]].
    destruct (sh_frees Sh) as (xs & Fx & Lx). cbn in Lx. destruct xs; [|discriminate]. rewrite app_nil_r in Fx. congruence. }
  assert (HN : forall b, b = b && true) by (intros; rewrite andb_true_r; reflexivity).
  destruct e as [lit| |cls|id|p|l|l|e|e|e|e|e|e bx f|e t|e|e].
  - apply COk_inj, pair_inj in H. destruct H as [<- <-]. split; [intros R _ _; cbn [through]; rewrite andb_true_r, negb_involutive; reflexivity|intros; apply HN].
  - destruct m.
    + apply COk_inj, pair_inj in H. destruct H as [<- <-]. split; [intros R _ _; cbn [through]; rewrite andb_true_r, negb_involutive; reflexivity|intros; apply HN].
    + apply cbind_ok in H. destruct H as ([v x1] & E & H). apply COk_inj, pair_inj in H. destruct H as [<- <-]. apply next_free_var_ok in E. destruct E as [F E].
      split; [|intros; rewrite E; apply HN]. intros R HR HD. cbn [through]. rewrite drop_none; [rewrite andb_true_r, negb_involutive; reflexivity|].
      apply (disj_in HD). rewrite F. apply in_or_app. right. left. reflexivity.
  - apply cbind_ok in H. destruct H as ([v x1] & E & H). apply cbind_ok in H. destruct H as (k & Ek & H). cbn [next_mark] in H.
    apply COk_inj, pair_inj in H. destruct H as [<- <-]. destruct m.
    + apply COk_inj, pair_inj in E. destruct E as [<- <-]. split; [|intros; apply HN]. intros R HR HD. cbn [through].
      rewrite (drop_none (mark_disj HR)), (drop_none (nx_disj HR)), andb_true_r, negb_involutive. reflexivity.
    + apply next_free_var_ok in E. destruct E as [F E]. rewrite E. cbn [mark_uid with_frees closures]. split; [|intros; apply HN]. intros R HR HD. cbn [through].
      rewrite (drop_none (mark_disj HR)). rewrite drop_none; [rewrite andb_true_r, negb_involutive; reflexivity|].
      apply (disj_in HD). rewrite F. apply in_or_app. right. left. reflexivity.
  - destruct m.
    + apply COk_inj, pair_inj in H. destruct H as [<- <-]. split; [intros R _ _; cbn [through]; rewrite andb_true_r, negb_involutive; reflexivity|intros; apply HN].
    + apply cbind_ok in H. destruct H as ([vs x1] & E & H). apply COk_inj, pair_inj in H. destruct H as [<- <-]. apply pop_vars_ok in E. destruct E as (F & _ & E).
      split; [|intros; rewrite E; apply HN]. intros R HR HD. cbn [through]. rewrite drops_none; [rewrite andb_true_r, negb_involutive; reflexivity|].
      apply (disj_sub HD). rewrite F. apply incl_appr, incl_refl.
  - destruct m.
    + apply COk_inj, pair_inj in H. destruct H as [<- <-]. split; [intros R _ _; cbn [through]; rewrite andb_true_r, negb_involutive; reflexivity|intros; apply HN].
    + apply cbind_ok in H. destruct H as ([vs x1] & E & H). apply COk_inj, pair_inj in H. destruct H as [<- <-]. apply pop_vars_ok in E. destruct E as (F & _ & E).
      split; [|intros; rewrite E; apply HN]. intros R HR HD. cbn [through]. rewrite drops_none; [rewrite andb_true_r, negb_involutive; reflexivity|].
      apply (disj_sub HD). rewrite F. apply incl_appr, incl_refl.
  - destruct (seq_exact HSh IHm H) as (_ & A & B). split; assumption.
  - (* choice *)
    destruct (success_as_closure s x) as [s1 x1] eqn:Es. cbn [next_mark next_branch branch_uid prefix_uid mark_uid counter_uid closure_uid closures frees marks muts ncomb] in H.
    apply cbind_ok in H. destruct H as ([bs y'] & E & H). destruct bs as [|b r]; [discriminate|].
    apply COk_inj, pair_inj in H. destruct H as [<- <-].
    assert (X : frees x1 = frees x /\ muts x1 = muts x /\ ncomb x1 = 0 /\ ctx_le x x1 /\ (prefix_uid x1 = prefix_uid x /\ mark_uid x1 = mark_uid x /\ branch_uid x1 = branch_uid x) /\
      (forall R, through R s1 = negb (if 0 <? ncomb x then negb (apart (muts x) R) else negb (through R s))) /\
      tab_ok (closures x1) = tab_ok (closures x) && (if 0 <? ncomb x then through (muts x) s else true)).
    { pose proof (success_as_closure_le s x) as L. rewrite Es in L. cbn [snd] in L. unfold success_as_closure in Es. destruct (0 <? ncomb x) eqn:En; apply pair_inj in Es; destruct Es as [<- <-].
      - do 3 (split; [reflexivity|]). split; [exact L|]. split; [auto|]. split; [intros R; cbn [through]; rewrite negb_involutive; reflexivity|].
        cbn [closures]. unfold tab_ok. rewrite forallb_app. cbn. rewrite andb_true_r. reflexivity.
      - do 2 (split; [reflexivity|]). split; [apply Nat.ltb_ge in En; lia|]. split; [exact L|]. split; [auto|].
        split; [intros R; rewrite negb_involutive; reflexivity|apply HN]. }
    destruct X as (X1 & X2 & X3 & X4 & (X5 & X6 & X7) & X8 & X9). 
    match type of E with compile_branches _ (save_scope ?z) _ _ _ ?z = _ => set (x4 := z) in * end.
    set (mk := NMark (S (mark_uid x1))) in *. set (bf := NBranch (S (branch_uid x1))) in *.
    assert (M4 : muts x4 = muts x ++ [bf]) by (cbn; rewrite X2; reflexivity).
    assert (L4 : ctx_le x x4).
    { eapply ctx_le_trans; [exact X4|]. eapply ctx_le_trans; [apply fresh_mark_le|]. eapply ctx_le_trans; [apply fresh_branch_le|]. apply with_muts_le. }
    destruct (@branches_exact _ m _ _ HSh IHm _ _ _ _ _ _ _ _ E (ctx_le_refl _) M4 X3) as (RB & TB).
    assert (F4 : frees x4 = frees x) by exact X1. rewrite F4 in RB, TB.
    split.
    + intros R HR HD. assert (Hb : ~ In bf R) by (unfold bf; rewrite X7; exact (branch_disj HR)).
      assert (Hk : ~ In mk R) by (unfold mk; rewrite X6; exact (mark_disj HR)).
      cbn [through]. rewrite (drop_none Hk), (drop_none Hb), (choice_through mk r Hb).
      specialize (RB R (olds_le L4 HR) HD Hb). cbn [forallb] in RB. rewrite RB, X8, negb_involutive. reflexivity.
    + intros HM' HF HD. rewrite TB.
      * assert (C4 : closures x4 = closures x1) by reflexivity. rewrite C4, X9, X8, negb_involutive, apart_self, negb_involutive.
        rewrite <- andb_assoc. f_equal. f_equal. destruct (0 <? ncomb x); cbn; [rewrite negb_involutive|]; reflexivity.
      * apply old_app; [eapply olds_le; eassumption|]. constructor; [|constructor]. unfold bf, x4. cbn. lia.
      * eapply olds_le; eassumption.
      * intros n Hn. apply in_app_or in Hn. destruct Hn as [Hn|[<-|[]]]; [exact (HD n Hn)|]. unfold bf. rewrite X7. exact (branch_disj HF).
  - (* star *)
    destruct m.
    + apply cbind_ok in H. destruct H as ([body x1'] & E & H). apply cbind_ok in E. destruct E as ([body' x1] & E & E').
      apply COk_inj, pair_inj in E'. destruct E' as [-> <-]. apply COk_inj in H. destruct (HB _ _ _ _ E) as (Lb & Fb & RB & TB). split.
      * intros R HR HD. destruct (through_repeat H (R := R)) as [-> _]; [eapply olds_le; [eapply ctx_le_trans; [exact Lb|apply with_ncomb_le]|exact HR]|].
        rewrite (RB R HR HD), negb_orb, negb_involutive. reflexivity.
      * intros H1 H2 H3. destruct (through_repeat H (R := [])) as [_ ->]; [constructor|]. exact (TB H1 H2 H3).
    + apply cbind_ok in H. destruct H as ([r x1] & Er & H). destruct (open_scope (card G e) x1) as [sc x2] eqn:Eo.
      apply cbind_ok in H. destruct H as ([body x4'] & E & H). apply cbind_ok in E. destruct E as ([body' x4] & E & E').
      apply COk_inj, pair_inj in E'. destruct E' as [-> <-]. apply cbind_ok in H. destruct H as (x5 & Ec & H).
      destruct (repeat_code 0 s CFailure body x5) as [c6 x6] eqn:E6. apply COk_inj, pair_inj in H. destruct H as [<- <-].
      destruct (scope_exact (opt := false) HM IHm Er Eo E Ec) as (L5 & RB & TB). apply next_free_var_ok in Er. destruct Er as [F _]. split.
      * intros R HR HD. assert (Hr : ~ In r R) by (apply (disj_in HD); rewrite F; apply in_or_app; right; left; reflexivity). cbn [through].
        rewrite (drop_none Hr). destruct (through_repeat E6 (R := R)) as [-> _]; [eapply olds_le; eassumption|]. rewrite (RB R HR HD), negb_involutive. reflexivity.
      * intros H1 H2 H3. destruct (through_repeat E6 (R := [])) as [_ ->]; [constructor|]. exact (TB H2).
  - destruct m.
    + apply cbind_ok in H. destruct H as ([body x1'] & E & H). apply cbind_ok in E. destruct E as ([body' x1] & E & E').
      apply COk_inj, pair_inj in E'. destruct E' as [-> <-]. apply COk_inj in H. destruct (HB _ _ _ _ E) as (Lb & Fb & RB & TB). split.
      * intros R HR HD. destruct (through_repeat H (R := R)) as [-> _]; [eapply olds_le; [eapply ctx_le_trans; [exact Lb|apply with_ncomb_le]|exact HR]|].
        rewrite (RB R HR HD), negb_orb, negb_involutive. reflexivity.
      * intros H1 H2 H3. destruct (through_repeat H (R := [])) as [_ ->]; [constructor|]. exact (TB H1 H2 H3).
    + apply cbind_ok in H. destruct H as ([r x1] & Er & H). destruct (open_scope (card G e) x1) as [sc x2] eqn:Eo.
      apply cbind_ok in H. destruct H as ([body x4'] & E & H). apply cbind_ok in E. destruct E as ([body' x4] & E & E').
      apply COk_inj, pair_inj in E'. destruct E' as [-> <-]. apply cbind_ok in H. destruct H as (x5 & Ec & H).
      destruct (repeat_code 1 s CFailure body x5) as [c6 x6] eqn:E6. apply COk_inj, pair_inj in H. destruct H as [<- <-].
      destruct (scope_exact (opt := false) HM IHm Er Eo E Ec) as (L5 & RB & TB). apply next_free_var_ok in Er. destruct Er as [F _]. split.
      * intros R HR HD. assert (Hr : ~ In r R) by (apply (disj_in HD); rewrite F; apply in_or_app; right; left; reflexivity). cbn [through].
        rewrite (drop_none Hr). destruct (through_repeat E6 (R := R)) as [-> _]; [eapply olds_le; eassumption|]. rewrite (RB R HR HD), negb_involutive. reflexivity.
      * intros H1 H2 H3. destruct (through_repeat E6 (R := [])) as [_ ->]; [constructor|]. exact (TB H2).
  - destruct m.
    + apply cbind_ok in H. destruct H as ([body x1'] & E & H). apply cbind_ok in E. destruct E as ([body' x1] & E & E').
      apply COk_inj, pair_inj in E'. destruct E' as [-> <-]. apply COk_inj in H. destruct (HB _ _ _ _ E) as (Lb & Fb & RB & TB). split.
      * intros R HR HD. destruct (through_optional H (R := R)) as [-> _]; [eapply olds_le; [eapply ctx_le_trans; [exact Lb|apply with_ncomb_le]|exact HR]|].
        rewrite (RB R HR HD), negb_orb, negb_involutive. reflexivity.
      * intros H1 H2 H3. destruct (through_optional H (R := [])) as [_ ->]; [constructor|]. exact (TB H1 H2 H3).
    + apply cbind_ok in H. destruct H as ([r x1] & Er & H). destruct (open_scope (card G e) x1) as [sc x2] eqn:Eo.
      apply cbind_ok in H. destruct H as ([body x4'] & E & H). apply cbind_ok in E. destruct E as ([body' x4] & E & E').
      apply COk_inj, pair_inj in E'. destruct E' as [-> <-]. apply cbind_ok in H. destruct H as (x5 & Ec & H).
      destruct (optional_code s body x5) as [c6 x6] eqn:E6. apply COk_inj, pair_inj in H. destruct H as [<- <-].
      destruct (scope_exact (opt := true) HM IHm Er Eo E Ec) as (L5 & RB & TB). apply next_free_var_ok in Er. destruct Er as [F _]. split.
      * intros R HR HD. assert (Hr : ~ In r R) by (apply (disj_in HD); rewrite F; apply in_or_app; right; left; reflexivity). cbn [through].
        rewrite (drop_none Hr). destruct (through_optional E6 (R := R)) as [-> _]; [eapply olds_le; eassumption|]. rewrite (RB R HR HD), negb_involutive. reflexivity.
      * intros H1 H2 H3. destruct (through_optional E6 (R := [])) as [_ ->]; [constructor|]. exact (TB H2).
  - (* predicates *)
    destruct m; [|discriminate]. apply cbind_ok in H. destruct H as ([body x2'] & E & H).
    apply cbind_ok in E. destruct E as ([body' x2] & E & E').
    apply COk_inj, pair_inj in E'. destruct E' as [-> <-]. apply COk_inj, pair_inj in H. destruct H as [<- <-].
    destruct (HB _ _ _ _ E) as (Lb & Fb & RB & TB). pose proof (fresh_mark_le x) as Lm. cbn [snd next_mark] in Lm. cbn [frees muts ncomb closures with_ncomb] in *. split.
    + intros R HR HD. cbn [through]. rewrite (drop_none (mark_disj HR)), (RB R (olds_le Lm HR) HD), negb_orb, negb_involutive. reflexivity.
    + intros H1 H2 H3. exact (TB (olds_le Lm H1) (olds_le Lm H2) H3).
  - destruct m; [|discriminate]. apply cbind_ok in H. destruct H as ([body x2'] & E & H).
    apply cbind_ok in E. destruct E as ([body' x2] & E & E').
    apply COk_inj, pair_inj in E'. destruct E' as [-> <-]. apply COk_inj, pair_inj in H. destruct H as [<- <-].
    destruct (HB _ _ _ _ E) as (Lb & Fb & RB & TB). pose proof (fresh_mark_le x) as Lm. cbn [snd next_mark] in Lm. cbn [frees muts ncomb closures with_ncomb] in *. split.
    + intros R HR HD. cbn [through]. rewrite (drop_none (mark_disj HR)), (RB R (olds_le Lm HR) HD), negb_orb, negb_involutive, andb_true_r. reflexivity.
    + intros H1 H2 H3. exact (TB (olds_le Lm H1) (olds_le Lm H2) H3).
  - (* action *)
    destruct m; [exact (IHr _ _ _ _ _ H)|].
    apply cbind_ok in H. destruct H as ([r x1] & Er & H). destruct (open_scope (card G e) x1) as [sc x2] eqn:Eo.
    apply cbind_ok in H. destruct H as ([body x4'] & E & H). apply cbind_ok in E. destruct E as ([body' x4] & E & E').
    apply COk_inj, pair_inj in E'. destruct E' as [-> <-]. apply cbind_ok in H. destruct H as (x5 & Ec & H).
    apply COk_inj, pair_inj in H. destruct H as [<- <-].
    pose proof (open_scope_le (card G e) x1) as Lo. rewrite Eo in Lo. cbn [snd] in Lo.
    apply next_free_var_ok in Er. destruct Er as [F E1]. apply close_scope_ok in Ec. destruct Ec as [Fy Ex]. apply pair_inj in Eo. destruct Eo as [Es E2].
    assert (M2 : muts x2 = []) by (rewrite <- E2; reflexivity).
    assert (N2 : ncomb x2 = 0) by (rewrite <- E2; reflexivity).
    assert (T2 : closures x2 = closures x) by (rewrite <- E2, E1; reflexivity).
    assert (F2 : frees x2 = map (NVar (prefix_uid x)) (seq 0 (card G e))) by (rewrite <- E2, E1; reflexivity).
    assert (P2 : prefix_uid x2 = S (prefix_uid x)) by (rewrite <- E2, E1; reflexivity).
    assert (L2 : ctx_le x x2) by (eapply ctx_le_trans; [|exact Lo]; rewrite E1; apply with_frees_le).
    destruct (IHm _ _ _ _ _ E) as (RI & TI). rewrite M2, N2, T2, F2 in *. split.
    + intros R HR HD. assert (Hr : ~ In r R) by (apply (disj_in HD); rewrite F; apply in_or_app; right; left; reflexivity).
      rewrite RI; [|eapply olds_le; eassumption|apply (fresh_vars_disj (x := x)); [exact HR|lia]]. cbn [through]. rewrite (drop_none Hr). reflexivity.
    + intros H1 H2 H3. rewrite Ex. cbn [closures restore_scope with_ncomb with_muts with_frees]. rewrite TI.
      * rewrite through_nil. reflexivity.
      * constructor.
      * apply Forall_forall. intros n Hn. apply in_map_iff in Hn. destruct Hn as (k & <- & _). change (prefix_uid x < prefix_uid x2). rewrite P2. lia.
      * intros n [].
  - exact (IHm _ _ _ _ _ H).
  - destruct m; [exact (IHr _ _ _ _ _ H)|].
    destruct (next_mark x) as [lo x1] eqn:Ek. apply cbind_ok in H. destruct H as ([r0 x2] & Er & H).
    apply cbind_ok in H. destruct H as ([body x3'] & E & H). apply cbind_ok in E. destruct E as ([body' x3] & E & E').
    apply COk_inj, pair_inj in E'. destruct E' as [-> <-]. apply COk_inj, pair_inj in H. destruct H as [<- <-].
    exact (span_exact HM IHm Ek Er E).
  - destruct m; [exact (IHr _ _ _ _ _ H)|].
    destruct (next_mark x) as [lo x1] eqn:Ek. apply cbind_ok in H. destruct H as ([r0 x2] & Er & H).
    apply cbind_ok in H. destruct H as ([body x3'] & E & H). apply cbind_ok in E. destruct E as ([body' x3] & E & E').
    apply COk_inj, pair_inj in E'. destruct E' as [-> <-]. apply COk_inj, pair_inj in H. destruct H as [<- <-].
    exact (span_exact HM IHm Ek Er E).
Qed.

(** ---------------- the functions ---------------- *)
Theorem recognizer_refs rl f : gen_recognizer G rl = COk f -> refs_ok f = rule_refs G Rec rl.
Proof.
  unfold gen_recognizer. intros H. apply cbind_ok in H. destruct H as ([c x] & E & H). apply COk_inj in H. subst f.
  destruct (@compile_exact _ Rec I _ _ _ _ _ E) as (_ & T). unfold refs_ok. cbn [fclosures fbody]. rewrite through_nil, andb_true_r.
  refine (eq_trans (T _ _ _) _); [constructor|constructor|intros n []|]. reflexivity.
Qed.
Theorem parser_refs rl f : coherent G -> gen_parser G rl = COk f -> refs_ok f = rule_refs G Par rl.
Proof.
  unfold gen_parser, rule_refs, is_unit. intros HC H. destruct (ty_of G (rexpr rl)) as [t|] eqn:Et; [|discriminate].
  destruct (ty_is_unit t).
  - apply COk_inj in H. subst f. reflexivity.
  - destruct (open_scope (card G (rexpr rl)) new_ctx) as [sc x1] eqn:Eo. apply cbind_ok in H. destruct H as ([c x2] & E & H).
    apply cbind_ok in H. destruct H as (x3 & Ec & H). apply COk_inj in H. subst f.
    apply close_scope_ok in Ec. destruct Ec as [Fy Ex]. apply pair_inj in Eo. destruct Eo as [Es E1].
    destruct (@compile_exact _ Par HC _ _ _ _ _ E) as (_ & T). unfold refs_ok. cbn [fclosures fbody]. rewrite through_nil, andb_true_r, Ex.
    cbn [closures restore_scope with_ncomb with_muts with_frees]. refine (eq_trans (T _ _ _) _); rewrite <- E1; cbn; [constructor| |intros n []|reflexivity].
    apply Forall_forall. intros n Hn. apply in_map_iff in Hn. destruct Hn as (k & <- & _). cbn. lia.
Qed.
End Exact.
