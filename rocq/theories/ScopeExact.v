(** Exactly which generated parsers have an unbound name (ScopeGen.v): a criterion on the expressions of
    the grammar.  The body of a function and its calls of closures are always right; a closure made for
    a choice is wrong when the code it takes over uses names of a scope that an action has left. *)
From Verif Require Import Base Grammar PegSpec Target Compile TargetFacts ScopeFacts CompileShape ScopeGen RustcCheck RustcRefs.
Set Implicit Arguments. Unset Strict Implicit.

(** ---------------- the criterion ---------------- *)
Section Criterion.
Variable G : grammar.

(** Of the place of an expression: [p], [h] and [st] as in RustcRefs.v (something of the same scope follows;
    the scope has mutable variables; what follows uses one of them); [lv]: the scope has values bound to
    the left of the expression; [hid]: what follows uses names of an enclosing scope, which a closure
    does not see.  An action opens a scope: what follows it is then outside. *)
Section Seq.
Variable A : Type.
Variables (has : A -> bool) (re : bool -> bool -> bool -> A -> bool) (se : bool -> bool -> bool -> bool -> bool -> A -> bool).
Fixpoint seq_sees (p h st lv hid : bool) (l : list A) : bool :=
  match l with
  | [] => true
  | [i] => se p h st lv hid i
  | i :: r => seq_sees p h st (lv || has i) hid r && se true h (seq_reaches re p h st r) lv (seq_reaches re p false hid r) i
  end.
Fixpoint alt_sees (h st lv hid : bool) (l : list A) : bool :=
  match l with
  | [] => false
  | [i] => se false h st lv hid i
  | i :: r => se false true true lv hid i && alt_sees h st lv hid r
  end.
End Seq.

(** [reaches p h st i] (RustcRefs.v) tells whether names ([h]: closures receive some of them; [st]: what follows
    uses some of them) are used by the code of [i] and of what follows.  Nothing follows the body of a predicate
    or of a repetition without value.  (A choice without branch has no code.) *)
Fixpoint sees (fuel : nat) (m : mode) (p h st lv hid : bool) (i : nat) : bool :=
  match fuel with
  | 0 => true
  | S n =>
    match expr_of G i with
    | None => true
    | Some e =>
      match e, mode_at G m i with
      | (EStr _ | EAny | EClass _ | ENT _ | EExt _), _ => true
      | ESeq l, m => seq_sees (fun j => 0 <? ncard G m j) (reaches G n m) (sees n m) p h st lv hid l
      | EAlt l, m => negb (p && hid) && alt_sees (sees n m) h (if p then h else st) lv (if p then false else hid) l
      | (EOpt j | EStar j | EPlus j), Rec | (ENot j | EAnd j), _ => sees n Rec p h false lv false j
      | (EOpt j | EStar j | EPlus j), Par => sees n Par false true true false false j
      | EAct j _ _, Rec => sees n Rec p h st lv hid j
      | EAct j _ _, Par => sees n Par false false false false (hid || st || lv) j
      | (EAsc j _ | ESpan j | ERange j), m => sees n m p h st lv hid j
      end
    end
  end.

Definition rule_sees (rl : rule) : bool :=
  if is_unit G (rexpr rl) then true else sees (gen_fuel G) Par false false false false false (rexpr rl).
End Criterion.

(** ---------------- the body and the calls are always right ---------------- *)
Definition calls_ok (cl : ctable) : Prop := forall pre k clo post, cl = pre ++ (k, clo) :: post -> calls_in pre (kbody clo) = true.
Lemma calls_ok_nil : calls_ok [].
Proof. intros pre k clo post H. destruct pre; discriminate H. Qed.
Lemma calls_ok_snoc cl k clo : calls_ok cl -> calls_in cl (kbody clo) = true -> calls_ok (cl ++ [(k, clo)]).
Proof.
  intros H C pre k' clo' post E. destruct post as [|p post] using rev_ind.
  - apply app_inj_tail in E. destruct E as [<- E]. injection E; intros <- <-. auto.
  - clear IHpost. rewrite app_comm_cons, app_assoc in E. apply app_inj_tail in E. destruct E as [E _].
    exact (H _ _ _ _ E).
Qed.
Lemma table_ok_both cl : table_ok cl <-> calls_ok cl /\ table_scoped cl = true.
Proof.
  split.
  - intros H. split; [intros pre k clo post E; apply (H _ _ _ _ E)|apply table_ok_scoped, H].
  - intros [H1 H2] pre k clo post E. split; [|exact (H1 _ _ _ _ E)]. unfold table_scoped in H2. rewrite forallb_forall in H2.
    apply (H2 (k, clo)). rewrite E. apply in_or_app. right. left. reflexivity.
Qed.

Ltac inc := let n := fresh in let H := fresh in intros n H;
  repeat (rewrite in_app_iff in * || cbn [In] in * ); intuition (subst; auto).
Ltac mono H := eapply scoped_mono; [| |exact H]; inc.
Ltac ands := repeat match goal with
  | |- _ && _ = true => apply andb_true_iff; split
  | |- mem _ _ = true => apply mem_In
  | |- subl _ _ = true => apply subl_incl
  end.

Section Body.
Variable G : grammar.

Definition holds (comp : nat -> code -> ctx -> cres (code * ctx)) : Prop :=
  forall i s x c y V A, comp i s x = COk (c, y) ->
    incl (muts x) A -> incl (muts x) V -> incl (marks x) V ->
    scoped (frees x ++ V) A s = true -> calls_in (closures x) s = true -> calls_ok (closures x) ->
    scoped (frees y ++ V) A c = true /\ calls_in (closures y) c = true /\ calls_ok (closures y).

Lemma seq_holds comp m : shape_ih G comp m -> holds comp ->
  forall l s x c y V A, compile_seq comp l s x = COk (c, y) ->
    incl (muts x) A -> incl (muts x) V -> incl (marks x) V ->
    scoped (frees x ++ V) A s = true -> calls_in (closures x) s = true -> calls_ok (closures x) ->
    scoped (frees y ++ V) A c = true /\ calls_in (closures y) c = true /\ calls_ok (closures y).
Proof.
  intros HS HK. induction l as [|i l IH]; intros s x c y V A H I1 I2 I3 S C T.
  - cbn [compile_seq] in H. apply COk_inj, pair_inj in H. destruct H as [<- <-]. auto.
  - cbn [compile_seq] in H. apply cbind_ok in H. destruct H as ([s1 x1] & E1 & H).
    apply cbind_ok in H. destruct H as ([c2 x2] & E2 & H). apply COk_inj, pair_inj in H. destruct H as [<- <-].
    pose proof (compile_seq_shape HS E1) as Sh.
    destruct (IH _ _ _ _ V A E1 I1 I2 I3 S C T) as (S1 & C1 & T1).
    destruct (HK i _ _ _ _ V A E2) as (S2 & C2 & T2); try assumption;
      try (rewrite (sh_muts Sh); assumption); try (rewrite (sh_marks Sh); assumption).
    auto.
Qed.

Lemma branches_hold comp m : shape_ih G comp m -> holds comp ->
  forall l nv x0 ms bf s x bs y V A,
    compile_branches comp (save_scope x0) bf s l x = COk (bs, y) ->
    Forall (fun j => ncard G m j = nv) l -> marks x = marks x0 -> muts x0 = ms ++ [bf] ->
    scoped (frees x0 ++ V) A s = true ->
    incl ms A -> In bf A -> incl ms V -> In bf V -> incl (marks x0) V ->
    calls_in (closures x) s = true -> calls_ok (closures x) ->
    Forall (fun b => scoped (frees y ++ V) A b = true /\ calls_in (closures y) b = true) bs /\ calls_ok (closures y).
Proof.
  intros HS HK. induction l as [|i l IH]; intros nv x0 ms bf s x bs y V A H HF Mk Ms SV I1 I2 I3 I4 I5 C T; [discriminate|].
  pose proof (compile_branches_shape HS HF H) as (_ & _ & _ & xs & Fx & Lxs). simpl in Fx.
  inversion HF as [|? ? Hi HF']; subst.
  destruct l as [|j l].
  - cbn [compile_branches] in H. apply cbind_ok in H. destruct H as (x1 & Ep & H).
    apply pop_mut_ok in Ep. destruct Ep as [_ Ep]. simpl in Ep. rewrite Ms, removelast_last in Ep.
    apply cbind_ok in H. destruct H as ([c y'] & Ec & H). apply COk_inj, pair_inj in H. destruct H as [<- ->].
    assert (F1 : frees x1 = frees x0) by (rewrite Ep; reflexivity).
    assert (M1 : muts x1 = ms) by (rewrite Ep; reflexivity).
    assert (K1 : marks x1 = marks x0) by (rewrite Ep; exact Mk).
    assert (Cl1 : closures x1 = closures x) by (rewrite Ep; reflexivity).
    destruct (HK i s x1 c y V A Ec) as (S2 & C2 & T2); rewrite ?M1, ?K1, ?F1, ?Cl1; try assumption.
    split; [constructor; [auto|constructor]|exact T2].
  - remember (j :: l) as jl eqn:Ejl. cbn [compile_branches] in H. rewrite Ejl in H. rewrite <- Ejl in H.
    apply cbind_ok in H. destruct H as ([c x1] & Ec & H). apply cbind_ok in H. destruct H as ([cs y'] & Es & H).
    apply COk_inj, pair_inj in H. destruct H as [<- ->].
    pose proof (HS _ _ _ _ _ Ec) as Sh.
    pose proof (compile_branches_shape HS HF' Es) as (L2 & _).
    destruct (sh_frees Sh) as (xs1 & Fx1 & Lx1). simpl in Fx1.
    assert (frees x1 = frees y) as Fy.
    { assert (length (frees x1) = length (frees y)).
      { apply (f_equal (@length _)) in Fx. apply (f_equal (@length _)) in Fx1. rewrite !app_length in *. lia. }
      assert (K : firstn (length (frees x1)) (frees x1 ++ xs1) = firstn (length (frees y)) (frees y ++ xs)) by (rewrite H; congruence).
      rewrite !firstn_app, !firstn_all, !Nat.sub_diag in K. cbn [firstn] in K. rewrite !app_nil_r in K. exact K. }
    destruct (HK i (CSetBool bf false s) (restore_scope (save_scope x0) x) c x1 V A Ec) as (S1 & C1 & T1).
    + simpl. rewrite Ms. intros n Hn. apply in_app_or in Hn. destruct Hn as [Hn|[<-|[]]]; auto.
    + simpl. rewrite Ms. intros n Hn. apply in_app_or in Hn. destruct Hn as [Hn|[<-|[]]]; auto.
    + simpl. rewrite Mk. exact I5.
    + simpl. apply andb_true_iff. split; [apply andb_true_iff; split; apply mem_In; [apply in_or_app|]; auto|]. exact SV.
    + exact C.
    + exact T.
    + assert (L1 : ctx_le x x1) by (eapply ctx_le_trans; [apply restore_scope_le|apply (sh_le Sh)]).
      destruct (IH (length xs) x0 ms bf s (with_ncomb x1 (Datatypes.S (ncomb x1))) cs y V A) as [F2 T2]; try assumption.
      * simpl. rewrite (sh_marks Sh). exact Mk.
      * simpl. eapply calls_in_le; [exact L1|exact C].
      * split; [|exact T2]. constructor; [|exact F2]. rewrite <- Fy. split; [exact S1|].
        eapply calls_in_le; [eapply ctx_le_trans; [apply with_ncomb_le|exact L2]|exact C1].
Qed.

(** Body of an option or a repetition of data. *)
Lemma scope_holds fuel e x r x1 sc x2 opt body x4 x5 :
  holds (compile G fuel Par) -> coherent G ->
  next_free_var x = COk (r, x1) -> open_scope (card G e) x1 = (sc, x2) ->
  compile G fuel Par e (stores r opt (frees (push_mut r x2))) (push_mut r x2) = COk (body, x4) ->
  close_scope sc (with_ncomb x4 (S (ncomb x4))) = COk x5 ->
  calls_ok (closures x) ->
  scoped (r :: marks x) [r] body = true /\ calls_in (closures x5) body = true /\ calls_ok (closures x5)
  /\ frees x = frees x1 ++ [r] /\ frees x5 = frees x1 /\ ctx_le x x5.
Proof.
  intros IH HC Er Eo Ec Ex T. apply next_free_var_ok in Er. destruct Er as [F E1].
  pose proof (compile_shape (m := Par) HC Ec) as Sh. apply close_scope_ok in Ex. destruct Ex as [Fy Ex].
  pose proof (open_scope_le (card G e) x1) as Lo. rewrite Eo in Lo. cbn [snd] in Lo.
  apply pair_inj in Eo. destruct Eo as [Es E2].
  assert (M3 : muts (push_mut r x2) = [r]) by (rewrite <- E2; reflexivity).
  assert (K3 : marks (push_mut r x2) = marks x) by (rewrite <- E2, E1; reflexivity).
  assert (T3 : closures (push_mut r x2) = closures x) by (rewrite <- E2, E1; reflexivity).
  assert (Sk : forall V A, In r V -> In r A -> scoped (frees (push_mut r x2) ++ V) A (stores r opt (frees (push_mut r x2))) = true).
  { intros V A H1 H2. unfold stores. destruct opt; cbn [scoped]; ands; try reflexivity; try (apply in_or_app; auto); auto; inc. }
  destruct (IH e (stores r opt (frees (push_mut r x2))) (push_mut r x2) body x4 (r :: marks x) [r] Ec) as (S1 & C1 & T1).
  - rewrite M3. inc.
  - rewrite M3. inc.
  - rewrite K3. inc.
  - apply Sk; left; reflexivity.
  - unfold stores. destruct opt; reflexivity.
  - rewrite T3. exact T.
  - cbn [frees with_ncomb] in Fy. rewrite Fy in S1. cbn [app] in S1.
    assert (T5 : closures x5 = closures x4) by (rewrite Ex; reflexivity). rewrite T5.
    split; [exact S1|]. split; [exact C1|]. split; [exact T1|]. split; [exact F|]. split; [rewrite Ex, <- Es; reflexivity|].
    eapply ctx_le_trans; [|rewrite Ex; apply restore_scope_le]. eapply ctx_le_trans; [|apply with_ncomb_le].
    eapply ctx_le_trans; [|apply (sh_le Sh)]. eapply ctx_le_trans; [|apply with_muts_le].
    eapply ctx_le_trans; [|exact Lo]. rewrite E1. apply with_frees_le.
Qed.

(** Body of a recogniser, followed by nothing. *)
Lemma body_holds fuel e x body x1 : holds (compile G fuel Rec) ->
  compile G fuel Rec e CState x = COk (body, x1) -> calls_ok (closures x) ->
  frees x1 = frees x /\ ctx_le x x1 /\ calls_in (closures x1) body = true /\ calls_ok (closures x1)
  /\ forall V A, incl (muts x) A -> incl (muts x) V -> incl (marks x) V -> scoped (frees x ++ V) A body = true.
Proof.
  intros IHr E T. pose proof (compile_shape (m := Rec) I E) as Sh. destruct (sh_frees Sh) as (xs & Fx & Lx). destruct xs; [|discriminate].
  rewrite app_nil_r in Fx. assert (K := fun V A I1 I2 I3 => @IHr e CState x body x1 V A E I1 I2 I3 eq_refl eq_refl T).
  destruct (K (muts x ++ marks x) (muts x)) as (_ & C1 & T1); try inc. split; [congruence|]. split; [apply (sh_le Sh)|].
  split; [exact C1|]. split; [exact T1|]. intros V A I1 I2 I3. rewrite Fx. apply K; assumption.
Qed.

(** [..e] and [...e]. *)
Lemma span_holds fuel (rg : bool) e x lo x1 r x2 s c x3 V A :
  holds (compile G fuel Par) -> coherent G ->
  next_mark x = (lo, x1) -> next_free_var_skip (card G e) x1 = COk (r, x2) ->
  compile G fuel Par e (CLetSpan r rg lo s) (push_mark lo x2) = COk (c, x3) ->
  incl (muts x) A -> incl (muts x) V -> incl (marks x) V ->
  scoped (frees x ++ V) A s = true -> calls_in (closures x) s = true -> calls_ok (closures x) ->
  scoped (frees x3 ++ V) A (CLetMark lo c) = true /\ calls_in (closures x3) (CLetMark lo c) = true /\ calls_ok (closures x3).
Proof.
  intros IH HC Em Er Ec I1 I2 I3 S C T. apply pair_inj in Em. destruct Em as [Elo E1].
  apply next_free_var_skip_ok in Er. destruct Er as (a & b & Fr & Lb & E2).
  assert (F1 : frees x = a ++ [r] ++ b) by (rewrite <- Fr, <- E1; reflexivity).
  assert (F2 : frees (push_mark lo x2) = a ++ b) by (rewrite E2; reflexivity).
  assert (M2 : muts (push_mark lo x2) = muts x) by (rewrite E2, <- E1; reflexivity).
  assert (K2 : marks (push_mark lo x2) = marks x ++ [lo]) by (rewrite E2, <- E1; reflexivity).
  assert (T2 : closures (push_mark lo x2) = closures x) by (rewrite E2, <- E1; reflexivity).
  assert (Sk : forall W B, scoped (frees x ++ W) B s = true -> In lo W -> scoped ((a ++ b) ++ W) B (CLetSpan r rg lo s) = true).
  { intros W B H1 H2. cbn [scoped]. ands; [apply in_or_app; auto|]. rewrite F1 in H1. mono H1. }
  destruct (IH e _ _ _ _ (lo :: V) (lo :: A) Ec) as (S1 & C1 & T1).
  - rewrite M2. inc.
  - rewrite M2. inc.
  - rewrite K2. inc.
  - rewrite F2. apply Sk; [mono S|left; reflexivity].
  - cbn [calls_in]. rewrite T2. exact C.
  - rewrite T2. exact T.
  - cbn [scoped calls_in]. split; [mono S1|auto].
Qed.

Lemma compile_holds fuel : forall m, cohm G m -> holds (compile G fuel m).
Proof.
  induction fuel as [|fuel IH]; intros m0 HC i s x c y V A H I1 I2 I3 S C T; [discriminate|].
  cbn [compile] in H. apply cbind_ok in H. destruct H as (m & Em & H).
  assert (HM : cohm G m) by (destruct m; [exact I|destruct (eff_par Em) as [-> _]; exact HC]).
  destruct (expr_of G i) as [e|] eqn:Ee; [|discriminate].
  assert (HE : m = Par -> coh_expr G i e).
  { intros ->. destruct (eff_par Em) as [-> Hu']. exact (HC i e Ee Hu'). }
  assert (HSh : shape_ih G (compile G fuel m) m) by (intros ? ? ? ? ? K; eapply compile_shape; eassumption).
  assert (IHm : holds (compile G fuel m)) by (apply IH, HM).
  assert (IHr : holds (compile G fuel Rec)) by (apply IH, I).
  clear Em.
  destruct e as [lit| |cls|id|p|l|l|e|e|e|e|e|e bx f|e t|e|e].
  - apply COk_inj, pair_inj in H. destruct H as [<- <-]. cbn. rewrite S, C. auto.
  - destruct m.
    + apply COk_inj, pair_inj in H. destruct H as [<- <-]. cbn. rewrite S, C. auto.
    + apply cbind_ok in H. destruct H as ([v x1] & E & H). apply COk_inj, pair_inj in H. destruct H as [<- <-].
      apply next_free_var_ok in E. destruct E as [F ->]. cbn [frees with_frees closures scoped calls_in] in *. rewrite F in S. rewrite C.
      split; [|auto]. ands; [mono S|reflexivity].
  - apply cbind_ok in H. destruct H as ([v x1] & E & H). apply cbind_ok in H. destruct H as (k & _ & H).
    apply COk_inj, pair_inj in H. destruct H as [<- <-].
    assert (closures x1 = closures x /\ scoped (v :: frees x1 ++ V) (v :: A) s = true) as [Ec Sc].
    { destruct m.
      - apply COk_inj, pair_inj in E. destruct E as [<- <-]. split; [reflexivity|]. mono S.
      - apply next_free_var_ok in E. destruct E as [F E]. rewrite F in S. split; [rewrite E; reflexivity|]. mono S. }
    cbn [frees closures scoped calls_in]. rewrite Ec, C. split; [|auto]. ands; try reflexivity; [mono Sc|cbn [In]; auto].
  - destruct m.
    + apply COk_inj, pair_inj in H. destruct H as [<- <-]. cbn. rewrite S, C. auto.
    + apply cbind_ok in H. destruct H as ([vs x1] & E & H). apply COk_inj, pair_inj in H. destruct H as [<- <-].
      apply pop_vars_ok in E. destruct E as (F & _ & E). rewrite E. cbn [frees closures scoped calls_in with_frees]. rewrite C.
      rewrite F in S. split; [|auto]. ands; [mono S|reflexivity].
  - destruct m.
    + apply COk_inj, pair_inj in H. destruct H as [<- <-]. cbn. rewrite S, C. auto.
    + apply cbind_ok in H. destruct H as ([vs x1] & E & H). apply COk_inj, pair_inj in H. destruct H as [<- <-].
      apply pop_vars_ok in E. destruct E as (F & _ & E). rewrite E. cbn [frees closures scoped calls_in with_frees]. rewrite C.
      rewrite F in S. split; [|auto]. ands; [mono S|reflexivity].
  - (* sequence *) eapply (@seq_holds _ m HSh IHm); eassumption.
  - (* choice *)
    destruct (success_as_closure s x) as [s1 x1] eqn:Es.
    apply cbind_ok in H. destruct H as ([bs y'] & E & H). destruct bs as [|b r]; [discriminate|].
    apply COk_inj, pair_inj in H. destruct H as [<- <-].
    assert (HF : Forall (fun j => ncard G m j = ncard G m i) l).
    { destruct m; [apply Forall_forall; reflexivity|exact (HE eq_refl)]. }
    assert (X : frees x1 = frees x /\ muts x1 = muts x /\ marks x1 = marks x
       /\ scoped (frees x ++ V) A s1 = true
       /\ calls_in (closures x1) s1 = true /\ calls_ok (closures x1)).
    { unfold success_as_closure in Es. destruct (0 <? ncomb x); apply pair_inj in Es; destruct Es as [<- <-].
      - do 3 (split; [reflexivity|]). cbn [closures]. split; [|split].
        + cbn [scoped]. ands; inc.
        + cbn [calls_in]. apply existsb_exists. eexists. split; [apply in_or_app; right; left; reflexivity|].
          cbn [fst snd kmuts kfrees kmarks]. rewrite !Nat.eqb_refl. reflexivity.
        + apply calls_ok_snoc; [exact T|exact C].
      - do 3 (split; [reflexivity|]). auto. }
    destruct X as (X1 & X2 & X3 & X4 & X5 & X6).
    set (mk := NMark (Datatypes.S (mark_uid x1))) in *. set (bf := NBranch (Datatypes.S (branch_uid x1))) in *.
    destruct (@branches_hold _ m HSh IHm l (ncard G m i) _ (muts x) bf s1 _ (b :: r) y' (bf :: mk :: V) (bf :: mk :: A) E HF) as [F2 T2];
      try (cbn [marks muts frees closures push_mut with_muts]; rewrite ?X1, ?X2, ?X3).
    + reflexivity.
    + reflexivity.
    + mono X4.
    + inc.
    + left. reflexivity.
    + inc.
    + left. reflexivity.
    + inc.
    + exact X5.
    + exact X6.
    + inversion F2 as [|? ? [Sb Cb] F3]; subst.
      assert (F3' : Forall (fun b => scoped (bf :: mk :: frees y' ++ V) (bf :: mk :: A) b = true /\ calls_in (closures y') b = true) r).
      { eapply Forall_impl; [|exact F3]. intros b' [Sb' Cb']. split; [mono Sb'|exact Cb']. }
      destruct (@choice_code_scoped (closures y') (bf :: mk :: frees y' ++ V) (bf :: mk :: A) bf mk r) as [Sc Cc]; [cbn; auto|cbn; auto|exact F3'|].
      cbn [scoped calls_in]. split; [ands; [mono Sb|exact Sc]|]. split; [ands; [exact Cb|exact Cc]|exact T2].
  - (* star *)
    destruct m.
    + apply cbind_ok in H. destruct H as ([body x1'] & E & H). apply cbind_ok in E. destruct E as ([body' x1] & E & E').
      apply COk_inj, pair_inj in E'. destruct E' as [-> <-]. apply COk_inj in H.
      destruct (body_holds IHr E T) as (Fx & Lx & C1 & T1 & S1).
      destruct (@keeps_repeat 0 s body _ c y (frees x ++ V) A H S (S1 V A I1 I2 I3)) as (R1 & R2 & R3); [exact (calls_in_le Lx C)|exact C1|].
      rewrite (repeat_frees H), R3. cbn [frees with_ncomb closures]. rewrite Fx. rewrite R3 in R2. auto.
    + apply cbind_ok in H. destruct H as ([r x1] & Er & H). destruct (open_scope (card G e) x1) as [sc x2] eqn:Eo.
      apply cbind_ok in H. destruct H as ([body x4'] & E & H). apply cbind_ok in E. destruct E as ([body' x4] & E & E').
      apply COk_inj, pair_inj in E'. destruct E' as [-> <-]. apply cbind_ok in H. destruct H as (x5 & Ec & H).
      destruct (repeat_code 0 s CFailure body x5) as [c6 x6] eqn:E6. apply COk_inj, pair_inj in H. destruct H as [<- <-].
      destruct (@scope_holds fuel e x r x1 sc x2 false body x4 x5 IHm HM Er Eo E Ec T) as (S1 & C1 & T1 & F1 & F5 & L5).
      rewrite F1 in S.
      destruct (@keeps_repeat 0 s body _ c6 x6 (r :: frees x1 ++ V) (r :: A) E6) as (R1 & R2 & R3);
        [mono S|mono S1|eapply calls_in_le; eassumption|exact C1|].
      rewrite (repeat_frees E6), F5. cbn [scoped calls_in]. split; [exact R1|]. rewrite R3. rewrite R3 in R2. auto.
  - destruct m.
    + apply cbind_ok in H. destruct H as ([body x1'] & E & H). apply cbind_ok in E. destruct E as ([body' x1] & E & E').
      apply COk_inj, pair_inj in E'. destruct E' as [-> <-]. apply COk_inj in H.
      destruct (body_holds IHr E T) as (Fx & Lx & C1 & T1 & S1).
      destruct (@keeps_repeat 1 s body _ c y (frees x ++ V) A H S (S1 V A I1 I2 I3)) as (R1 & R2 & R3); [exact (calls_in_le Lx C)|exact C1|].
      rewrite (repeat_frees H), R3. cbn [frees with_ncomb closures]. rewrite Fx. rewrite R3 in R2. auto.
    + apply cbind_ok in H. destruct H as ([r x1] & Er & H). destruct (open_scope (card G e) x1) as [sc x2] eqn:Eo.
      apply cbind_ok in H. destruct H as ([body x4'] & E & H). apply cbind_ok in E. destruct E as ([body' x4] & E & E').
      apply COk_inj, pair_inj in E'. destruct E' as [-> <-]. apply cbind_ok in H. destruct H as (x5 & Ec & H).
      destruct (repeat_code 1 s CFailure body x5) as [c6 x6] eqn:E6. apply COk_inj, pair_inj in H. destruct H as [<- <-].
      destruct (@scope_holds fuel e x r x1 sc x2 false body x4 x5 IHm HM Er Eo E Ec T) as (S1 & C1 & T1 & F1 & F5 & L5).
      rewrite F1 in S.
      destruct (@keeps_repeat 1 s body _ c6 x6 (r :: frees x1 ++ V) (r :: A) E6) as (R1 & R2 & R3);
        [mono S|mono S1|eapply calls_in_le; eassumption|exact C1|].
      rewrite (repeat_frees E6), F5. cbn [scoped calls_in]. split; [exact R1|]. rewrite R3. rewrite R3 in R2. auto.
  - destruct m.
    + apply cbind_ok in H. destruct H as ([body x1'] & E & H). apply cbind_ok in E. destruct E as ([body' x1] & E & E').
      apply COk_inj, pair_inj in E'. destruct E' as [-> <-]. apply COk_inj in H.
      destruct (body_holds IHr E T) as (Fx & Lx & C1 & T1 & S1).
      destruct (@keeps_optional s body _ c y (frees x ++ V) A H S (S1 V A I1 I2 I3)) as (R1 & R2 & R3); [exact (calls_in_le Lx C)|exact C1|].
      rewrite (optional_frees H), R3. cbn [frees with_ncomb closures]. rewrite Fx. rewrite R3 in R2. auto.
    + apply cbind_ok in H. destruct H as ([r x1] & Er & H). destruct (open_scope (card G e) x1) as [sc x2] eqn:Eo.
      apply cbind_ok in H. destruct H as ([body x4'] & E & H). apply cbind_ok in E. destruct E as ([body' x4] & E & E').
      apply COk_inj, pair_inj in E'. destruct E' as [-> <-]. apply cbind_ok in H. destruct H as (x5 & Ec & H).
      destruct (optional_code s body x5) as [c6 x6] eqn:E6. apply COk_inj, pair_inj in H. destruct H as [<- <-].
      destruct (@scope_holds fuel e x r x1 sc x2 true body x4 x5 IHm HM Er Eo E Ec T) as (S1 & C1 & T1 & F1 & F5 & L5).
      rewrite F1 in S.
      destruct (@keeps_optional s body _ c6 x6 (r :: frees x1 ++ V) (r :: A) E6) as (R1 & R2 & R3);
        [mono S|mono S1|eapply calls_in_le; eassumption|exact C1|].
      rewrite (optional_frees E6), F5. cbn [scoped calls_in]. split; [exact R1|]. rewrite R3. rewrite R3 in R2. auto.
  - destruct m; [|discriminate]. apply cbind_ok in H. destruct H as ([body x2'] & E & H).
    apply cbind_ok in E. destruct E as ([body' x2] & E & E').
    apply COk_inj, pair_inj in E'. destruct E' as [-> <-]. apply COk_inj, pair_inj in H. destruct H as [<- <-].
    destruct (body_holds IHr E T) as (Fx & Lx & C1 & T1 & S1). cbn [frees muts marks with_ncomb closures] in *.
    cbn [scoped calls_in]. rewrite C1, (calls_in_le Lx C), Fx. split; [|auto].
    specialize (S1 V A I1 I2 I3). ands; try reflexivity; [mono S1|left; reflexivity|mono S].
  - destruct m; [|discriminate]. apply cbind_ok in H. destruct H as ([body x2'] & E & H).
    apply cbind_ok in E. destruct E as ([body' x2] & E & E').
    apply COk_inj, pair_inj in E'. destruct E' as [-> <-]. apply COk_inj, pair_inj in H. destruct H as [<- <-].
    destruct (body_holds IHr E T) as (Fx & Lx & C1 & T1 & S1). cbn [frees muts marks with_ncomb closures] in *.
    cbn [scoped calls_in]. rewrite C1, (calls_in_le Lx C), Fx. split; [|auto].
    specialize (S1 V A I1 I2 I3). ands; try reflexivity; [mono S1|left; reflexivity|mono S].
  - (* action *)
    destruct m; [eapply (IHr e); eassumption|].
    apply cbind_ok in H. destruct H as ([r x1] & Er & H). destruct (open_scope (card G e) x1) as [sc x2] eqn:Eo.
    apply cbind_ok in H. destruct H as ([body x4'] & E & H). apply cbind_ok in E. destruct E as ([body' x4] & E & E').
    apply COk_inj, pair_inj in E'. destruct E' as [-> <-]. apply cbind_ok in H. destruct H as (x5 & Ec & H).
    apply COk_inj, pair_inj in H. destruct H as [<- <-].
    apply next_free_var_ok in Er. destruct Er as [F E1]. apply close_scope_ok in Ec. destruct Ec as [Fy Ex].
    cbn [frees with_ncomb] in Fy.
    apply pair_inj in Eo. destruct Eo as [Es E2].
    assert (M2 : muts x2 = []) by (rewrite <- E2; reflexivity).
    assert (K2 : marks x2 = marks x) by (rewrite <- E2, E1; reflexivity).
    assert (T2 : closures x2 = closures x) by (rewrite <- E2, E1; reflexivity).
    rewrite F in S.
    destruct (IHm e _ _ _ _ (frees x1 ++ V) A E) as (S1 & C1 & T1).
    * rewrite M2. inc.
    * rewrite M2. inc.
    * rewrite K2. inc.
    * cbn [scoped]. ands; [inc|]. mono S.
    * cbn [calls_in]. rewrite T2. exact C.
    * rewrite T2. exact T.
    * rewrite Fy in S1. cbn [app] in S1. rewrite Ex, <- Es. cbn [frees closures restore_scope with_ncomb with_muts with_frees sc_frees save_scope]. auto.
  - (* ascription *) eapply (IHm e); eassumption.
  - destruct m; [eapply (IHr e); eassumption|].
    destruct (next_mark x) as [lo x1] eqn:Em. apply cbind_ok in H. destruct H as ([r0 x2] & Er & H).
    apply cbind_ok in H. destruct H as ([body x3'] & E & H). apply cbind_ok in E. destruct E as ([body' x3] & E & E').
    apply COk_inj, pair_inj in E'. destruct E' as [-> <-]. apply COk_inj, pair_inj in H. destruct H as [<- <-].
    exact (@span_holds fuel false e x lo x1 r0 x2 s body x3 V A IHm HM Em Er E I1 I2 I3 S C T).
  - destruct m; [eapply (IHr e); eassumption|].
    destruct (next_mark x) as [lo x1] eqn:Em. apply cbind_ok in H. destruct H as ([r0 x2] & Er & H).
    apply cbind_ok in H. destruct H as ([body x3'] & E & H). apply cbind_ok in E. destruct E as ([body' x3] & E & E').
    apply COk_inj, pair_inj in E'. destruct E' as [-> <-]. apply COk_inj, pair_inj in H. destruct H as [<- <-].
    exact (@span_holds fuel true e x lo x1 r0 x2 s body x3 V A IHm HM Em Er E I1 I2 I3 S C T).
Qed.
End Body.

(** ---------------- the names a code uses ---------------- *)
(** [avoids R c]: no name of [R] is read or assigned in [c], unless bound there. *)
Fixpoint avoids (R : list name) (c : code) : bool :=
  match c with
  | CState | CFailure | CTail _ => true
  | CSuccess vars => apart vars R
  | CCall _ ms fs ks => apart ms R && apart fs R && apart ks R
  | CLetMark x c | CLetBool x _ c | CLetCounter x c | CLetNone x c | CLetVec x c => avoids (drop x R) c
  | CLetAct x _ _ _ args c => apart args R && avoids (drop x R) c
  | CLetSpan x _ lo c => negb (mem lo R) && avoids (drop x R) c
  | CSetBool b _ c => negb (mem b R) && avoids R c
  | CSetSome x vars c | CPush x vars c => negb (mem x R) && apart vars R && avoids R c
  | CMatchNext (Some x) s f | CMatchClass x _ s f => avoids (drop x R) s && avoids R f
  | CMatchNext None s f | CPrefix _ s f | CCallRec _ s f => avoids R s && avoids R f
  | CCallPar _ vars s f => avoids (drops vars R) s && avoids R f
  | CError _ c => avoids R c
  | CRestore m c | CRestoreFF m c | CIfFailedRestore m c => negb (mem m R) && avoids R c
  | CAssign b c => avoids R b && avoids R c
  | CIfTrue x c1 c2 | CTestRestore x c1 c2 | CIfLess x _ c1 c2 => negb (mem x R) && avoids R c1 && avoids R c2
  | CLoop body counter mk c =>
    match counter with Some k => negb (mem k R) | None => true end && negb (mem mk R) && avoids R body && avoids R c
  end.

Lemma drop_In x n l : In n (drop x l) <-> In n l /\ n <> x.
Proof.
  unfold drop. rewrite filter_In. split; intros [H K]; split; auto.
  - intros ->. rewrite name_eqb_refl in K. discriminate.
  - destruct (name_eqb x n) eqn:E; [|reflexivity]. apply name_eqb_eq in E. congruence.
Qed.
Lemma drops_In xs : forall n l, In n (drops xs l) <-> In n l /\ ~ In n xs.
Proof.
  induction xs as [|x xs IH]; intros n l; cbn [drops In]; [tauto|]. rewrite IH, drop_In. split; [intros [[H1 H2] H3]|intros [H1 H2]]; (split; [|intros K]); try tauto.
  - destruct K; [congruence|tauto].
  - split; [tauto|]. intros ->. tauto.
Qed.
Lemma mem_app n a b : mem n (a ++ b) = mem n a || mem n b.
Proof. unfold mem. apply List.existsb_app. Qed.
Lemma apart_app_r l a b : apart l (a ++ b) = apart l a && apart l b.
Proof.
  induction l as [|n l IH]; [reflexivity|]. cbn. unfold apart in IH. rewrite IH, mem_app, negb_orb.
  destruct (mem n a), (mem n b); cbn; rewrite ?andb_false_r, ?andb_true_r; reflexivity.
Qed.
Lemma drop_app x a b : drop x (a ++ b) = drop x a ++ drop x b.
Proof. apply filter_app. Qed.
Lemma drops_app xs : forall a b, drops xs (a ++ b) = drops xs a ++ drops xs b.
Proof. induction xs as [|x xs IH]; intros a b; [reflexivity|]. cbn [drops]. rewrite drop_app. apply IH. Qed.

Ltac bools := repeat match goal with
  | |- context [negb (?a || ?b)] => rewrite (negb_orb a b)
  end; repeat match goal with
  | |- context [mem ?a ?b] => destruct (mem a b)
  | |- context [apart ?a ?b] => destruct (apart a b)
  | |- context [avoids ?a ?b] => destruct (avoids a b)
  end; reflexivity.
Lemma avoids_app c : forall a b, avoids (a ++ b) c = avoids a c && avoids b c.
Proof.
  induction c; intros R1 R2; cbn [avoids]; try (destruct x); try (destruct counter); rewrite ?drop_app, ?drops_app, ?apart_app_r, ?mem_app, ?IHc, ?IHc1, ?IHc2; try bools.
Qed.
Lemma avoids_nil c : avoids [] c = true.
Proof.
  assert (D : forall xs, drops xs [] = []) by (induction xs; auto). assert (P : forall l, apart l [] = true) by (intros l; apply forallb_forall; reflexivity).
  induction c; cbn [avoids]; try (destruct x); try (destruct counter); cbn [drop filter]; rewrite ?D, ?P, ?IHc, ?IHc1, ?IHc2; reflexivity.
Qed.

(** Names out of scope are not used. *)
Lemma scoped_disj c : forall R V A, scoped V A c = true -> disj R V -> avoids R c = true.
Proof.
  assert (M : forall x V R, mem x V = true -> disj R V -> mem x R = false) by (intros x V R H D; apply not_mem; intros K; apply (D x K), mem_In, H).
  assert (P : forall l V R, subl l V = true -> disj R V -> apart l R = true) by (intros l V R H D; apply apart_spec; intros n Hn K; apply (D n K); apply subl_incl in H; auto).
  assert (D1 : forall x V R, disj R V -> disj (drop x R) (x :: V)) by (intros x V R D n Hn [->|K]; apply drop_In in Hn; [tauto|]; apply (D n); tauto).
  assert (D2 : forall xs V R, disj R V -> disj (drops xs R) (xs ++ V)) by (intros x V R D n Hn K; apply drops_In in Hn; apply in_app_or in K; destruct K; [tauto|]; apply (D n); tauto).
  induction c; intros R V A H D; cbn [avoids scoped] in *; try reflexivity; try (destruct x); try (destruct counter);
    repeat match goal with H : _ && _ = true |- _ => apply andb_true_iff in H; destruct H end;
    repeat (apply andb_true_iff; split); try (apply negb_true_iff); eauto.
Qed.
(** Names that are not used need not be in scope. *)
Lemma scoped_avoid c : forall R V A V' A', scoped V' A' c = true -> incl V' (V ++ R) -> incl A' (A ++ R) -> avoids R c = true -> scoped V A c = true.
Proof.
  assert (M : forall x (V V' R : list name), mem x V' = true -> incl V' (V ++ R) -> mem x R = false -> mem x V = true).
  { intros x V V' R H I N. apply mem_In in H. apply I, in_app_or in H. apply mem_In. destruct H as [H|H]; [exact H|]. apply mem_In in H. congruence. }
  assert (P : forall l (V V' R : list name), subl l V' = true -> incl V' (V ++ R) -> apart l R = true -> subl l V = true).
  { intros l V V' R H I N. apply subl_incl in H. apply subl_incl. intros n Hn. specialize (I n (H n Hn)). apply in_app_or in I. destruct I as [I|I]; [exact I|].
    exfalso. apply apart_spec in N. exact (N n Hn I). }
  assert (D1 : forall x (V V' R : list name), incl V' (V ++ R) -> incl (x :: V') ((x :: V) ++ drop x R)).
  { intros x V V' R I n [->|Hn]; [left; reflexivity|]. apply I, in_app_or in Hn. cbn [app]. destruct (name_eqb x n) eqn:E; [apply name_eqb_eq in E; left; exact E|].
    right. apply in_or_app. destruct Hn as [Hn|Hn]; [auto|]. right. apply drop_In. split; [exact Hn|]. intros ->. rewrite name_eqb_refl in E. discriminate. }
  assert (D2 : forall xs (V V' R : list name), incl V' (V ++ R) -> incl (xs ++ V') ((xs ++ V) ++ drops xs R)).
  { intros xs V V' R I n Hn. apply in_or_app. apply in_app_or in Hn. destruct Hn as [Hn|Hn]; [left; apply in_or_app; auto|]. apply I, in_app_or in Hn.
    destruct Hn as [Hn|Hn]; [left; apply in_or_app; auto|]. destruct (mem n xs) eqn:E; [left; apply in_or_app; left; apply mem_In, E|].
    right. apply drops_In. split; [exact Hn|]. intros K. apply mem_In in K. congruence. }
  induction c; intros R V A V' A' H I J N; cbn [avoids scoped] in *; try reflexivity; try (destruct x); try (destruct counter);
    repeat match goal with
    | H : _ && _ = true |- _ => apply andb_true_iff in H; destruct H
    | H : negb _ = true |- _ => apply negb_true_iff in H
    end;
    repeat (apply andb_true_iff; split); eauto.
Qed.

(** ---------------- the criterion and what is used ---------------- *)
Section Exact.
Variable G : grammar.

(** What follows an action inside is used by its code, unless a closure took it over. *)
Lemma seq_under A (re : bool -> bool -> bool -> A -> bool) has se :
  (forall p h st lv i, se p h st lv true i = true -> re p false true i = true) ->
  forall l p h st lv, seq_sees has re se p h st lv true l = true -> seq_reaches re p false true l = true.
Proof.
  intros H. induction l as [|i l IH]; intros p h st lv K; [reflexivity|]. cbn [seq_sees seq_reaches] in *. destruct l as [|j l]; [eapply H, K|].
  apply andb_true_iff in K. destruct K as [K1 K2]. apply IH in K1. rewrite K1 in *. eapply H, K2.
Qed.
Lemma sees_under fuel : forall m p h st lv i, sees G fuel m p h st lv true i = true -> reaches G fuel m p false true i = true.
Proof.
  induction fuel as [|n IH]; intros m p h st lv i H; [reflexivity|]. cbn [sees reaches] in *. destruct (expr_of G i) as [e|]; [|reflexivity].
  destruct e; destruct (mode_at G m i); try reflexivity; cbn [orb] in H; rewrite ?orb_true_r; try reflexivity; try (eapply IH; exact H).
  - eapply seq_under; [|exact H]. intros; eapply IH; eassumption.
  - eapply seq_under; [|exact H]. intros; eapply IH; eassumption.
  - rewrite andb_true_r in H. destruct p; [discriminate|]. cbn [negb andb] in H. destruct l as [|a l]; [discriminate|]. cbn [existsb]. apply orb_true_iff. left.
    cbn [alt_sees] in H. destruct l; [eapply IH, H|]. apply andb_true_iff in H. destruct H as [H _]. eapply IH, H.
  - rewrite andb_true_r in H. destruct p; [discriminate|]. cbn [negb andb] in H. destruct l as [|a l]; [discriminate|]. cbn [existsb]. apply orb_true_iff. left.
    cbn [alt_sees] in H. destruct l; [eapply IH, H|]. apply andb_true_iff in H. destruct H as [H _]. eapply IH, H.
Qed.
(** The values bound to the left are used. *)
Lemma seq_left A (re : bool -> bool -> bool -> A -> bool) has se :
  (forall p h st hid i, se p h st true hid i = true -> re p true true i = true) ->
  forall l p h st hid, seq_sees has re se p h st true hid l = true -> seq_reaches re p true true l = true.
Proof.
  intros H. induction l as [|i l IH]; intros p h st hid K; [reflexivity|]. cbn [seq_sees seq_reaches] in *. destruct l as [|j l]; [eapply H, K|].
  apply andb_true_iff in K. destruct K as [K1 K2]. apply IH in K1. rewrite K1 in *. eapply H, K2.
Qed.
Lemma sees_left fuel : forall m p h st hid i, sees G fuel m p h st true hid i = true -> reaches G fuel m p true true i = true.
Proof.
  induction fuel as [|n IH]; intros m p h st hid i H; [reflexivity|]. cbn [sees reaches] in *. destruct (expr_of G i) as [e|]; [|reflexivity].
  assert (P : (if p then true else true) = true) by (destruct p; reflexivity).
  destruct e; destruct (mode_at G m i); try reflexivity; rewrite ?orb_true_r in *; try reflexivity; try (eapply IH; exact H); try (eapply sees_under; exact H).
  - eapply seq_left; [|exact H]. intros; eapply IH; eassumption.
  - eapply seq_left; [|exact H]. intros; eapply IH; eassumption.
  - apply andb_true_iff in H. destruct H as [_ H]. rewrite P. destruct l as [|a l]; [discriminate|]. cbn [existsb]. apply orb_true_iff. left.
    cbn [alt_sees] in H. destruct l; [eapply IH, H|]. apply andb_true_iff in H. destruct H as [H _]. eapply IH, H.
  - apply andb_true_iff in H. destruct H as [_ H]. rewrite P. destruct l as [|a l]; [discriminate|]. cbn [existsb]. apply orb_true_iff. left.
    cbn [alt_sees] in H. destruct l; [eapply IH, H|]. apply andb_true_iff in H. destruct H as [H _]. eapply IH, H.
Qed.

(** ---------------- names used by the code ---------------- *)
(** The names of [R] are not among the variables bound between [y] and [x]. *)
Definition clear (R : list name) (x y : ctx) : Prop := exists xs, frees x = frees y ++ xs /\ disj R xs.
Lemma clear_eq R x y xs : clear R x y -> frees x = frees y ++ xs -> disj R xs.
Proof. intros (ys & E & D) F. rewrite F in E. apply app_inv_head in E. subst ys. exact D. Qed.
Definition meets (x : ctx) (R : list name) : bool := negb (apart (frees x ++ muts x) R).
Lemma disj_apart a b : disj b a -> apart a b = true.
Proof. intros H. apply apart_spec. intros n Hn K. exact (H n K Hn). Qed.
Lemma meets_clear R x y xs : frees x = frees y ++ xs -> disj R xs -> muts y = muts x -> meets y R = meets x R.
Proof.
  intros F D M. unfold meets. rewrite F, M, !apart_app, (disj_apart D). rewrite andb_true_r. reflexivity.
Qed.

Definition uses (comp : nat -> code -> ctx -> cres (code * ctx)) (re : bool -> bool -> bool -> nat -> bool) : Prop :=
  forall i s x c y, comp i s x = COk (c, y) -> forall R, Forall (old x) R -> clear R x y -> disj R (marks x) ->
     avoids R c = negb (re (0 <? ncomb x) (meets x R) (negb (avoids R s)) i).

Lemma seq_uses comp m re : shape_ih G comp m -> uses comp re -> forall l s x c y, compile_seq comp l s x = COk (c, y) ->
  (l <> [] -> 0 <? ncomb y = true) /\
  (forall R, Forall (old x) R -> clear R x y -> disj R (marks x) ->
     avoids R c = negb (seq_reaches re (0 <? ncomb x) (meets x R) (negb (avoids R s)) l)).
Proof.
  intros HS HX. induction l as [|i l IH]; intros s x c y H.
  - cbn [compile_seq] in H. apply COk_inj, pair_inj in H. destruct H as [<- <-]. split; [congruence|]. intros; cbn; rewrite negb_involutive; reflexivity.
  - cbn [compile_seq] in H. apply cbind_ok in H. destruct H as ([s1 x1] & E1 & H).
    apply cbind_ok in H. destruct H as ([c2 x2] & E2 & H). apply COk_inj, pair_inj in H. destruct H as [<- <-].
    split; [reflexivity|]. intros R HR HC HM.
    pose proof (compile_seq_shape HS E1) as Sh. pose proof (HS _ _ _ _ _ E2) as Sh2.
    destruct (sh_frees Sh) as (xs & Fx & _). destruct (sh_frees Sh2) as (ys & Fy & _).
    assert (D : disj R (ys ++ xs)) by (eapply clear_eq; [exact HC|]; cbn [frees with_ncomb]; rewrite Fx, Fy, app_assoc; reflexivity).
    assert (D1 : disj R xs) by (intros n Hn K; apply (D n Hn), in_or_app; auto).
    assert (D2 : disj R ys) by (intros n Hn K; apply (D n Hn), in_or_app; auto).
    destruct (IH _ _ _ _ E1) as (P1 & R1).
    rewrite (HX _ _ _ _ _ E2 R); [|eapply olds_le; [apply (sh_le Sh)|exact HR]|exists ys; auto|rewrite (sh_marks Sh); exact HM].
    rewrite (R1 R HR); [|exists xs; auto|exact HM]. rewrite negb_involutive, (meets_clear Fx D1 (sh_muts Sh)). destruct l as [|j l].
    + cbn [compile_seq] in E1. apply COk_inj, pair_inj in E1. destruct E1 as [<- <-]. reflexivity.
    + rewrite (P1 ltac:(discriminate)). reflexivity.
Qed.

Lemma same_frees (a b xs ys : list name) : a ++ xs = b ++ ys -> length xs = length ys -> a = b /\ xs = ys.
Proof.
  intros H L. assert (K : length a = length b) by (apply (f_equal (@length _)) in H; rewrite !app_length in H; lia).
  revert b K H. induction a as [|n a IH]; intros [|n' b] K H; try discriminate K; [auto|]. cbn in H, K. injection H as <- H.
  destruct (IH b) as [-> ->]; [lia|exact H|auto].
Qed.

Lemma branches_uses comp m re : shape_ih G comp m -> uses comp re ->
  forall l nv x0 ms bf s x bs y, compile_branches comp (save_scope x0) bf s l x = COk (bs, y) ->
    Forall (fun j => ncard G m j = nv) l -> marks x = marks x0 ->
    ctx_le x0 x -> muts x0 = ms ++ [bf] -> ncomb x0 = 0 ->
    forall R, Forall (old x0) R -> clear R x0 y -> disj R (marks x0) -> ~ In bf R ->
      forallb (avoids R) bs = negb (existsb (re false (negb (apart (frees x0 ++ ms) R)) (negb (avoids R s))) l).
Proof.
  intros HS HX. induction l as [|i l IH]; intros nv x0 ms bf s x bs y H HF Mk L Ms Nc R HR HC HM HB; [discriminate|].
  pose proof (compile_branches_shape HS HF H) as (_ & _ & _ & xs & Fx & Lxs). cbn [sc_frees save_scope] in Fx.
  pose proof (clear_eq HC Fx) as D. inversion HF as [|? ? Hi HF']; subst. destruct l as [|j l].
  - cbn [compile_branches] in H. apply cbind_ok in H. destruct H as (x1 & Ep & H).
    apply pop_mut_ok in Ep. destruct Ep as [_ Ep]. simpl in Ep. rewrite Ms, removelast_last in Ep.
    apply cbind_ok in H. destruct H as ([c y'] & Ec & H). apply COk_inj, pair_inj in H. destruct H as [<- ->].
    assert (L1 : ctx_le x0 x1) by (rewrite Ep; eapply ctx_le_trans; [exact L|]; eapply ctx_le_trans; [apply restore_scope_le|apply with_muts_le]).
    assert (F1 : frees x1 = frees x0) by (rewrite Ep; reflexivity).
    assert (M1 : muts x1 = ms) by (rewrite Ep; reflexivity).
    assert (N1 : ncomb x1 = 0) by (rewrite Ep; exact Nc).
    assert (K1 : marks x1 = marks x0) by (rewrite Ep; exact Mk).
    cbn [forallb existsb]. rewrite (HX _ _ _ _ _ Ec R (olds_le L1 HR)); [|exists xs; rewrite F1; auto|rewrite K1; exact HM].
    unfold meets. rewrite F1, M1, N1. cbn. rewrite andb_true_r, orb_false_r. reflexivity.
  - remember (j :: l) as jl eqn:Ejl. cbn [compile_branches] in H. rewrite Ejl in H. rewrite <- Ejl in H.
    apply cbind_ok in H. destruct H as ([c x1] & Ec & H). apply cbind_ok in H. destruct H as ([cs y'] & Es & H).
    apply COk_inj, pair_inj in H. destruct H as [<- ->].
    pose proof (HS _ _ _ _ _ Ec) as Sh.
    assert (L0 : ctx_le x0 (restore_scope (save_scope x0) x)) by (eapply ctx_le_trans; [exact L|apply restore_scope_le]).
    assert (L1 : ctx_le x0 (with_ncomb x1 (S (ncomb x1)))).
    { eapply ctx_le_trans; [exact L0|]. eapply ctx_le_trans; [apply (sh_le Sh)|apply with_ncomb_le]. }
    destruct (sh_frees Sh) as (xs1 & Fx1 & Lx1). cbn [frees restore_scope with_ncomb with_muts with_frees sc_frees save_scope] in Fx1.
    assert (xs1 = xs) as -> by (apply (@same_frees (frees x1) (frees y)); congruence).
    cbn [forallb existsb]. rewrite (HX _ _ _ _ _ Ec R (olds_le L0 HR)); [|exists xs; split; [exact Fx1|exact D]|cbn; rewrite Mk; exact HM].
    rewrite (IH (length xs) x0 ms bf s (with_ncomb x1 (S (ncomb x1))) cs y Es HF'); try assumption; [|cbn; rewrite (sh_marks Sh); exact Mk].
    unfold meets. cbn [frees muts ncomb closures restore_scope with_ncomb with_muts with_frees sc_frees sc_muts sc_ncomb save_scope]. rewrite Nc, Ms, app_assoc, (meets_snoc _ HB).
    cbn [avoids]. rewrite (not_mem HB). cbn [negb andb Nat.ltb Nat.leb]. rewrite negb_orb. reflexivity.
Qed.

Lemma choice_avoids R bf mk bs : ~ In bf R -> ~ In mk R -> avoids R (choice_code bf mk bs) = forallb (avoids R) bs.
Proof.
  intros H K. induction bs as [|b bs IH]; [reflexivity|]. cbn [choice_code avoids forallb]. rewrite IH, (not_mem H), (not_mem K). cbn. rewrite andb_true_r. reflexivity.
Qed.
Lemma avoids_optional R s body x c y : optional_code s body x = (c, y) -> Forall (old x) R ->
  avoids R c = avoids R body && avoids R s /\ closures y = closures x.
Proof.
  intros H HR. apply pair_inj in H. destruct H as [<- <-]. cbn [avoids closures]. rewrite (drop_none (mark_disj HR)), (not_mem (mark_disj HR)). cbn [negb andb]. auto.
Qed.
Lemma avoids_repeat R k s body x c y : repeat_code k s CFailure body x = (c, y) -> Forall (old x) R ->
  avoids R c = avoids R body && avoids R s /\ closures y = closures x.
Proof.
  intros H HR. unfold repeat_code in H. cbn [next_mark] in H. destruct (0 <? k).
  - apply pair_inj in H. destruct H as [<- <-]. cbn [avoids closures]. rewrite (drop_none (mark_disj HR)).
    pose proof (counter_disj HR) as Hc. cbn. rewrite (drop_none Hc). rewrite (not_mem Hc), (not_mem (mark_disj HR)). cbn [negb andb]. auto.
  - apply pair_inj in H. destruct H as [<- <-]. cbn [avoids closures]. rewrite (drop_none (mark_disj HR)), (not_mem (mark_disj HR)). cbn [negb andb]. auto.
Qed.

(** The scope of an option or of a list uses nothing of the enclosing one. *)
Lemma scope_uses fuel e x r x1 sc x2 opt body x4 x5 : coherent G ->
  uses (compile G fuel Par) (reaches G fuel Par) ->
  next_free_var x = COk (r, x1) -> open_scope (card G e) x1 = (sc, x2) ->
  compile G fuel Par e (stores r opt (frees (push_mut r x2))) (push_mut r x2) = COk (body, x4) ->
  close_scope sc (with_ncomb x4 (S (ncomb x4))) = COk x5 ->
  ctx_le x x5 /\ frees x = frees x1 ++ [r] /\ frees x5 = frees x1 /\
  (forall R, Forall (old x) R -> ~ In r R -> disj R (marks x) -> avoids R body = true).
Proof.
  intros HC IH Er Eo Ec Ex. apply next_free_var_ok in Er. destruct Er as [F E1].
  pose proof (compile_shape (m := Par) HC Ec) as Sh. apply close_scope_ok in Ex. destruct Ex as [Fy Ex]. cbn [frees with_ncomb] in Fy.
  pose proof (open_scope_le (card G e) x1) as Lo. rewrite Eo in Lo. cbn [snd] in Lo.
  apply pair_inj in Eo. destruct Eo as [Es E2].
  assert (M3 : muts (push_mut r x2) = [r]) by (rewrite <- E2; reflexivity).
  assert (N3 : ncomb (push_mut r x2) = 0) by (rewrite <- E2; reflexivity).
  assert (K3 : marks (push_mut r x2) = marks x) by (rewrite <- E2, E1; reflexivity).
  assert (F3 : frees (push_mut r x2) = map (NVar (prefix_uid x)) (seq 0 (card G e))) by (rewrite <- E2, E1; reflexivity).
  assert (L3 : ctx_le x (push_mut r x2)).
  { eapply ctx_le_trans; [|apply with_muts_le]. eapply ctx_le_trans; [|exact Lo]. rewrite E1. apply with_frees_le. }
  split; [|split; [exact F|split; [rewrite Ex, <- Es; reflexivity|]]].
  - eapply ctx_le_trans; [exact L3|]. eapply ctx_le_trans; [apply (sh_le Sh)|]. eapply ctx_le_trans; [apply with_ncomb_le|]. rewrite Ex. apply restore_scope_le.
  - intros R HR Hr HK. assert (DF : disj R (frees (push_mut r x2))) by (rewrite F3; apply (fresh_vars_disj (x := x)); [exact HR|lia]).
    rewrite (IH _ _ _ _ _ Ec R); [|eapply olds_le; eassumption|exists (frees (push_mut r x2)); rewrite Fy; auto|rewrite K3; exact HK].
    assert (A : meets (push_mut r x2) R = false).
    { unfold meets. rewrite M3, apart_app, (disj_apart DF). unfold apart; cbn [forallb]. rewrite (not_mem Hr). reflexivity. }
    assert (S0 : avoids R (stores r opt (frees (push_mut r x2))) = true) by (unfold stores; destruct opt; cbn [avoids]; rewrite (not_mem Hr), (disj_apart DF); reflexivity).
    rewrite A, S0. cbn [negb]. rewrite reaches_none. reflexivity.
Qed.

Lemma span_uses fuel (rg : bool) e x lo x1 r x2 s body x3 : coherent G ->
  uses (compile G fuel Par) (reaches G fuel Par) ->
  next_mark x = (lo, x1) -> next_free_var_skip (card G e) x1 = COk (r, x2) ->
  compile G fuel Par e (CLetSpan r rg lo s) (push_mark lo x2) = COk (body, x3) ->
  forall R, Forall (old x) R -> clear R x x3 -> disj R (marks x) ->
     avoids R (CLetMark lo body) = negb (reaches G fuel Par (0 <? ncomb x) (meets x R) (negb (avoids R s)) e).
Proof.
  intros HC IH Em Er Ec R HR HCl HK. apply next_free_var_skip_ok in Er. destruct Er as (a & b & F & Lb & E2).
  pose proof (compile_shape (m := Par) HC Ec) as Sh. destruct (sh_frees Sh) as (ys & Fy & Ly). cbn in Ly.
  apply pair_inj in Em. destruct Em as [El E1].
  assert (F' : frees x = a ++ [r] ++ b) by (rewrite <- F, <- E1; reflexivity).
  assert (F2 : frees (push_mark lo x2) = a ++ b) by (rewrite E2; reflexivity). rewrite F2 in Fy.
  apply same_frees in Fy; [|congruence]. destruct Fy as [Fa <-].
  assert (D : disj R ([r] ++ b)) by (eapply clear_eq; [exact HCl|]; rewrite F', Fa; reflexivity).
  assert (Hr : ~ In r R) by (intros K; apply (D r K); left; reflexivity).
  assert (Hl : ~ In lo R) by (rewrite <- El; exact (mark_disj HR)).
  assert (Db : disj R b) by (intros n Hn K; apply (D n Hn); right; exact K).
  assert (L2 : ctx_le x (push_mark lo x2)).
  { rewrite E2, <- E1. eapply ctx_le_trans; [apply fresh_mark_le|]. eapply ctx_le_trans; [|apply with_marks_le]. apply with_frees_le. }
  cbn [avoids]. rewrite (drop_none Hl).
  rewrite (IH _ _ _ _ _ Ec R); [|eapply olds_le; eassumption|exists b; rewrite F2, Fa; auto|].
  - cbn [avoids]. rewrite (not_mem Hl), (drop_none Hr). cbn [negb andb].
    assert (M2 : muts (push_mark lo x2) = muts x) by (rewrite E2, <- E1; reflexivity).
    assert (N2 : ncomb (push_mark lo x2) = ncomb x) by (rewrite E2, <- E1; reflexivity). rewrite N2.
    f_equal. f_equal. unfold meets. rewrite F2, M2, F', !apart_app. cbn. rewrite (not_mem Hr). reflexivity.
  - assert (K2 : marks (push_mark lo x2) = marks x ++ [lo]) by (rewrite E2, <- E1; reflexivity). rewrite K2.
    intros n Hn K. apply in_app_or in K. destruct K as [K|[<-|[]]]; [exact (HK n Hn K)|exact (Hl Hn)].
Qed.

Lemma compile_uses fuel : forall m, cohm G m -> uses (compile G fuel m) (reaches G fuel m).
Proof.
  induction fuel as [|fuel IH]; intros m0 HC i s x c y H; [discriminate|].
  cbn [compile] in H. apply cbind_ok in H. destruct H as (m & Em & H).
  assert (HM : cohm G m) by (destruct m; [exact I|destruct (eff_par Em) as [-> _]; exact HC]).
  destruct (expr_of G i) as [e|] eqn:Ee; [|discriminate].
  assert (HE : m = Par -> coh_expr G i e).
  { intros ->. destruct (eff_par Em) as [-> Hu]. exact (HC i e Ee Hu). }
  assert (Eq1 : forall p h st, reaches G (S fuel) m0 p h st i = match e, m with
      | (EStr _ | EAny | EClass _ | ENT _ | EExt _), _ => st
      | ESeq l, m => seq_reaches (reaches G fuel m) p h st l
      | EAlt l, m => existsb (reaches G fuel m false h (if p then h else st)) l
      | (EOpt j | EStar j | EPlus j), Rec | (ENot j | EAnd j), _ => reaches G fuel Rec p h false j || st
      | (EOpt _ | EStar _ | EPlus _), Par => st
      | EAct j _ _, Rec => reaches G fuel Rec p h st j
      | EAct j _ _, Par => reaches G fuel Par false false st j
      | (EAsc j _ | ESpan j | ERange j), m => reaches G fuel m p h st j
      end) by (intros; cbn [reaches]; rewrite Ee, (mode_at_eff Em); reflexivity).
  pose proof (IH m HM) as IHm. pose proof (IH Rec I) as IHr.
  assert (HSh : shape_ih G (compile G fuel m) m) by (intros ? ? ? ? ? K; eapply compile_shape; eassumption).
  assert (HSr : shape_ih G (compile G fuel Rec) Rec) by (intros ? ? ? ? ? K; eapply compile_shape; [exact I|eassumption]).
  (* the body of a predicate, option or repetition without value *)
  assert (HB : forall j x body x1, compile G fuel Rec j CState x = COk (body, x1) ->
     ctx_le x x1 /\ (forall R, Forall (old x) R -> disj R (marks x) -> avoids R body = negb (reaches G fuel Rec (0 <? ncomb x) (meets x R) false j))).
  { intros j x' body x1 E. pose proof (HSr _ _ _ _ _ E) as Sh. split; [apply (sh_le Sh)|]. intros R HR HD.
    rewrite (IHr _ _ _ _ _ E R HR); [reflexivity| |exact HD]. destruct (sh_frees Sh) as (xs & Fx & Lx). cbn in Lx. destruct xs; [|discriminate]. exists []. split; [exact Fx|intros n _ []]. }
  intros R HR HCl HK. rewrite Eq1. clear Eq1.
  destruct e as [lit| |cls|id|p|l|l|e|e|e|e|e|e bx f|e t|e|e].
  - apply COk_inj, pair_inj in H. destruct H as [<- <-]. cbn [avoids]. rewrite andb_true_r, negb_involutive; reflexivity.
  - destruct m.
    + apply COk_inj, pair_inj in H. destruct H as [<- <-]. cbn [avoids]. rewrite andb_true_r, negb_involutive; reflexivity.
    + apply cbind_ok in H. destruct H as ([v x1] & E & H). apply COk_inj, pair_inj in H. destruct H as [<- <-]. apply next_free_var_ok in E. destruct E as [F E].
      pose proof (clear_eq HCl F) as D. cbn [avoids]. rewrite drop_none; [rewrite andb_true_r, negb_involutive; reflexivity|].
      apply (disj_in D). left. reflexivity.
  - apply cbind_ok in H. destruct H as ([v x1] & E & H). apply cbind_ok in H. destruct H as (k & Ek & H). cbn [next_mark] in H.
    apply COk_inj, pair_inj in H. destruct H as [<- <-]. destruct m.
    + apply COk_inj, pair_inj in E. destruct E as [<- <-]. cbn [avoids].
      rewrite (drop_none (mark_disj HR)), (drop_none (nx_disj HR)), (not_mem (mark_disj HR)), andb_true_r, negb_involutive. reflexivity.
    + apply next_free_var_ok in E. destruct E as [F E]. cbn [frees] in HCl. pose proof (clear_eq HCl F) as D.
      assert (K : ~ In (NMark (S (mark_uid x1))) R) by (rewrite E; exact (mark_disj HR)). cbn [avoids].
      rewrite (drop_none K), (not_mem K). rewrite drop_none; [rewrite andb_true_r, negb_involutive; reflexivity|].
      apply (disj_in D). left. reflexivity.
  - destruct m.
    + apply COk_inj, pair_inj in H. destruct H as [<- <-]. cbn [avoids]. rewrite andb_true_r, negb_involutive; reflexivity.
    + apply cbind_ok in H. destruct H as ([vs x1] & E & H). apply COk_inj, pair_inj in H. destruct H as [<- <-]. apply pop_vars_ok in E. destruct E as (F & _ & E).
      cbn [avoids]. rewrite (drops_none (clear_eq HCl F)), andb_true_r, negb_involutive; reflexivity.
  - destruct m.
    + apply COk_inj, pair_inj in H. destruct H as [<- <-]. cbn [avoids]. rewrite andb_true_r, negb_involutive; reflexivity.
    + apply cbind_ok in H. destruct H as ([vs x1] & E & H). apply COk_inj, pair_inj in H. destruct H as [<- <-]. apply pop_vars_ok in E. destruct E as (F & _ & E).
      cbn [avoids]. rewrite (drops_none (clear_eq HCl F)), andb_true_r, negb_involutive; reflexivity.
  - apply (seq_uses HSh IHm H); assumption.
  - (* choice *)
    destruct (success_as_closure s x) as [s1 x1] eqn:Es. cbn [next_mark next_branch branch_uid prefix_uid mark_uid counter_uid closure_uid closures frees marks muts ncomb] in H.
    apply cbind_ok in H. destruct H as ([bs y'] & E & H). destruct bs as [|b r]; [discriminate|].
    apply COk_inj, pair_inj in H. destruct H as [<- <-].
    assert (X : frees x1 = frees x /\ muts x1 = muts x /\ marks x1 = marks x /\ ncomb x1 = 0 /\ ctx_le x x1 /\ (mark_uid x1 = mark_uid x /\ branch_uid x1 = branch_uid x) /\
      avoids R s1 = negb (if 0 <? ncomb x then meets x R else negb (avoids R s))).
    { pose proof (success_as_closure_le s x) as L. rewrite Es in L. cbn [snd] in L. unfold success_as_closure in Es. destruct (0 <? ncomb x) eqn:En; apply pair_inj in Es; destruct Es as [<- <-].
      - do 4 (split; [reflexivity|]). split; [exact L|]. split; [auto|]. cbn [avoids]. unfold meets. rewrite negb_involutive, apart_app, (disj_apart HK), andb_true_r, andb_comm. reflexivity.
      - do 3 (split; [reflexivity|]). split; [apply Nat.ltb_ge in En; lia|]. split; [exact L|]. split; [auto|].
        rewrite negb_involutive; reflexivity. }
    destruct X as (X1 & X2 & X2' & X3 & X4 & (X6 & X7) & X8).
    match type of E with compile_branches _ (save_scope ?z) _ _ _ ?z = _ => set (x4 := z) in * end.
    set (mk := NMark (S (mark_uid x1))) in *. set (bf := NBranch (S (branch_uid x1))) in *.
    assert (M4 : muts x4 = muts x ++ [bf]) by (cbn; rewrite X2; reflexivity).
    assert (L4 : ctx_le x x4).
    { eapply ctx_le_trans; [exact X4|]. eapply ctx_le_trans; [apply fresh_mark_le|]. eapply ctx_le_trans; [apply fresh_branch_le|]. apply with_muts_le. }
    assert (F4 : frees x4 = frees x) by exact X1. assert (K4 : marks x4 = marks x) by exact X2'.
    assert (HF : Forall (fun j => ncard G m j = ncard G m i) l).
    { destruct m; [apply Forall_forall; reflexivity|exact (HE eq_refl)]. }
    assert (Hb : ~ In bf R) by (unfold bf; rewrite X7; exact (branch_disj HR)).
    assert (Hk : ~ In mk R) by (unfold mk; rewrite X6; exact (mark_disj HR)).
    assert (RB : forallb (avoids R) (b :: r) = negb (existsb (reaches G fuel m false (negb (apart (frees x4 ++ muts x) R)) (negb (avoids R s1))) l)).
    { eapply (@branches_uses _ m _ HSh IHm _ _ _ _ _ _ _ _ _ E HF eq_refl (ctx_le_refl _) M4 X3 R (olds_le L4 HR)); [|rewrite K4; exact HK|exact Hb].
      unfold clear. rewrite F4. exact HCl. }
    cbn [avoids]. rewrite (drop_none Hk), (drop_none Hb), (choice_avoids r Hb Hk). cbn [forallb] in RB. rewrite RB, X8, negb_involutive, F4. reflexivity.
  - (* star *)
    destruct m.
    + apply cbind_ok in H. destruct H as ([body x1'] & E & H). apply cbind_ok in E. destruct E as ([body' x1] & E & E').
      apply COk_inj, pair_inj in E'. destruct E' as [-> <-]. apply COk_inj in H. destruct (HB _ _ _ _ E) as (Lb & RB).
      destruct (avoids_repeat H (R := R)) as [-> _]; [eapply olds_le; [eapply ctx_le_trans; [exact Lb|apply with_ncomb_le]|exact HR]|].
      rewrite (RB R HR HK), negb_orb, negb_involutive. reflexivity.
    + apply cbind_ok in H. destruct H as ([r x1] & Er & H). destruct (open_scope (card G e) x1) as [sc x2] eqn:Eo.
      apply cbind_ok in H. destruct H as ([body x4'] & E & H). apply cbind_ok in E. destruct E as ([body' x4] & E & E').
      apply COk_inj, pair_inj in E'. destruct E' as [-> <-]. apply cbind_ok in H. destruct H as (x5 & Ec & H).
      destruct (repeat_code 0 s CFailure body x5) as [c6 x6] eqn:E6. apply COk_inj, pair_inj in H. destruct H as [<- <-].
      destruct (scope_uses (opt := false) HM IHm Er Eo E Ec) as (L5 & F & F5 & RB).
      assert (D : disj R [r]) by (eapply clear_eq; [exact HCl|]; rewrite (repeat_frees E6), F5; exact F).
      assert (Hr : ~ In r R) by (apply (disj_in D); left; reflexivity). cbn [avoids].
      rewrite (drop_none Hr). destruct (avoids_repeat E6 (R := R)) as [-> _]; [eapply olds_le; eassumption|]. rewrite (RB R HR Hr HK), negb_involutive. reflexivity.
  - destruct m.
    + apply cbind_ok in H. destruct H as ([body x1'] & E & H). apply cbind_ok in E. destruct E as ([body' x1] & E & E').
      apply COk_inj, pair_inj in E'. destruct E' as [-> <-]. apply COk_inj in H. destruct (HB _ _ _ _ E) as (Lb & RB).
      destruct (avoids_repeat H (R := R)) as [-> _]; [eapply olds_le; [eapply ctx_le_trans; [exact Lb|apply with_ncomb_le]|exact HR]|].
      rewrite (RB R HR HK), negb_orb, negb_involutive. reflexivity.
    + apply cbind_ok in H. destruct H as ([r x1] & Er & H). destruct (open_scope (card G e) x1) as [sc x2] eqn:Eo.
      apply cbind_ok in H. destruct H as ([body x4'] & E & H). apply cbind_ok in E. destruct E as ([body' x4] & E & E').
      apply COk_inj, pair_inj in E'. destruct E' as [-> <-]. apply cbind_ok in H. destruct H as (x5 & Ec & H).
      destruct (repeat_code 1 s CFailure body x5) as [c6 x6] eqn:E6. apply COk_inj, pair_inj in H. destruct H as [<- <-].
      destruct (scope_uses (opt := false) HM IHm Er Eo E Ec) as (L5 & F & F5 & RB).
      assert (D : disj R [r]) by (eapply clear_eq; [exact HCl|]; rewrite (repeat_frees E6), F5; exact F).
      assert (Hr : ~ In r R) by (apply (disj_in D); left; reflexivity). cbn [avoids].
      rewrite (drop_none Hr). destruct (avoids_repeat E6 (R := R)) as [-> _]; [eapply olds_le; eassumption|]. rewrite (RB R HR Hr HK), negb_involutive. reflexivity.
  - destruct m.
    + apply cbind_ok in H. destruct H as ([body x1'] & E & H). apply cbind_ok in E. destruct E as ([body' x1] & E & E').
      apply COk_inj, pair_inj in E'. destruct E' as [-> <-]. apply COk_inj in H. destruct (HB _ _ _ _ E) as (Lb & RB).
      destruct (avoids_optional H (R := R)) as [-> _]; [eapply olds_le; [eapply ctx_le_trans; [exact Lb|apply with_ncomb_le]|exact HR]|].
      rewrite (RB R HR HK), negb_orb, negb_involutive. reflexivity.
    + apply cbind_ok in H. destruct H as ([r x1] & Er & H). destruct (open_scope (card G e) x1) as [sc x2] eqn:Eo.
      apply cbind_ok in H. destruct H as ([body x4'] & E & H). apply cbind_ok in E. destruct E as ([body' x4] & E & E').
      apply COk_inj, pair_inj in E'. destruct E' as [-> <-]. apply cbind_ok in H. destruct H as (x5 & Ec & H).
      destruct (optional_code s body x5) as [c6 x6] eqn:E6. apply COk_inj, pair_inj in H. destruct H as [<- <-].
      destruct (scope_uses (opt := true) HM IHm Er Eo E Ec) as (L5 & F & F5 & RB).
      assert (D : disj R [r]) by (eapply clear_eq; [exact HCl|]; rewrite (optional_frees E6), F5; exact F).
      assert (Hr : ~ In r R) by (apply (disj_in D); left; reflexivity). cbn [avoids].
      rewrite (drop_none Hr). destruct (avoids_optional E6 (R := R)) as [-> _]; [eapply olds_le; eassumption|]. rewrite (RB R HR Hr HK), negb_involutive. reflexivity.
  - (* predicates *)
    destruct m; [|discriminate]. apply cbind_ok in H. destruct H as ([body x2'] & E & H).
    apply cbind_ok in E. destruct E as ([body' x2] & E & E').
    apply COk_inj, pair_inj in E'. destruct E' as [-> <-]. apply COk_inj, pair_inj in H. destruct H as [<- <-].
    destruct (HB _ _ _ _ E) as (Lb & RB). pose proof (fresh_mark_le x) as Lm. cbn [snd next_mark] in Lm.
    cbn [avoids]. rewrite (drop_none (mark_disj HR)), (not_mem (mark_disj HR)), (RB R (olds_le Lm HR) HK). cbn [negb andb]. rewrite negb_orb, negb_involutive. reflexivity.
  - destruct m; [|discriminate]. apply cbind_ok in H. destruct H as ([body x2'] & E & H).
    apply cbind_ok in E. destruct E as ([body' x2] & E & E').
    apply COk_inj, pair_inj in E'. destruct E' as [-> <-]. apply COk_inj, pair_inj in H. destruct H as [<- <-].
    destruct (HB _ _ _ _ E) as (Lb & RB). pose proof (fresh_mark_le x) as Lm. cbn [snd next_mark] in Lm.
    cbn [avoids]. rewrite (drop_none (mark_disj HR)), (not_mem (mark_disj HR)), (RB R (olds_le Lm HR) HK). cbn [negb andb]. rewrite negb_orb, negb_involutive, ?andb_true_r. reflexivity.
  - (* action *)
    destruct m; [exact (IHr _ _ _ _ _ H R HR HCl HK)|].
    apply cbind_ok in H. destruct H as ([r x1] & Er & H). destruct (open_scope (card G e) x1) as [sc x2] eqn:Eo.
    apply cbind_ok in H. destruct H as ([body x4'] & E & H). apply cbind_ok in E. destruct E as ([body' x4] & E & E').
    apply COk_inj, pair_inj in E'. destruct E' as [-> <-]. apply cbind_ok in H. destruct H as (x5 & Ec & H).
    apply COk_inj, pair_inj in H. destruct H as [<- <-].
    pose proof (open_scope_le (card G e) x1) as Lo. rewrite Eo in Lo. cbn [snd] in Lo.
    apply next_free_var_ok in Er. destruct Er as [F E1]. apply close_scope_ok in Ec. destruct Ec as [Fy Ex]. apply pair_inj in Eo. destruct Eo as [Es E2].
    cbn [frees with_ncomb] in Fy.
    assert (M2 : muts x2 = []) by (rewrite <- E2; reflexivity).
    assert (N2 : ncomb x2 = 0) by (rewrite <- E2; reflexivity).
    assert (K2 : marks x2 = marks x) by (rewrite <- E2, E1; reflexivity).
    assert (F2 : frees x2 = map (NVar (prefix_uid x)) (seq 0 (card G e))) by (rewrite <- E2, E1; reflexivity).
    assert (L2 : ctx_le x x2) by (eapply ctx_le_trans; [|exact Lo]; rewrite E1; apply with_frees_le).
    assert (DF : disj R (frees x2)) by (rewrite F2; apply (fresh_vars_disj (x := x)); [exact HR|lia]).
    assert (D : disj R [r]) by (eapply clear_eq; [exact HCl|]; rewrite Ex, <- Es; cbn; exact F).
    assert (Hr : ~ In r R) by (apply (disj_in D); left; reflexivity).
    rewrite (IHm _ _ _ _ _ E R); [|eapply olds_le; eassumption|exists (frees x2); rewrite Fy; auto|rewrite K2; exact HK].
    assert (A : meets x2 R = false) by (unfold meets; rewrite M2, app_nil_r, (disj_apart DF); reflexivity). rewrite A, N2.
    cbn [avoids]. rewrite (drop_none Hr), (disj_apart DF). reflexivity.
  - exact (IHm _ _ _ _ _ H R HR HCl HK).
  - destruct m; [exact (IHr _ _ _ _ _ H R HR HCl HK)|].
    destruct (next_mark x) as [lo x1] eqn:Ek. apply cbind_ok in H. destruct H as ([r0 x2] & Er & H).
    apply cbind_ok in H. destruct H as ([body x3'] & E & H). apply cbind_ok in E. destruct E as ([body' x3] & E & E').
    apply COk_inj, pair_inj in E'. destruct E' as [-> <-]. apply COk_inj, pair_inj in H. destruct H as [<- <-].
    exact (span_uses HM IHm Ek Er E HR HCl HK).
  - destruct m; [exact (IHr _ _ _ _ _ H R HR HCl HK)|].
    destruct (next_mark x) as [lo x1] eqn:Ek. apply cbind_ok in H. destruct H as ([r0 x2] & Er & H).
    apply cbind_ok in H. destruct H as ([body x3'] & E & H). apply cbind_ok in E. destruct E as ([body' x3] & E & E').
    apply COk_inj, pair_inj in E'. destruct E' as [-> <-]. apply COk_inj, pair_inj in H. destruct H as [<- <-].
    exact (span_uses HM IHm Ek Er E HR HCl HK).
Qed.

(** ---------------- the closures ---------------- *)
(** What is known of the place where [s] follows: its names are in scope, the hidden ones [R] included. *)
Record place (m : mode) (R : list name) (s : code) (x : ctx) : Prop := {
  pl_old : Forall (old x) (muts x ++ frees x ++ R);
  pl_nodup : NoDup (frees x);
  pl_mf : disj (muts x) (frees x);
  pl_R : disj R (frees x ++ muts x ++ marks x);
  pl_marks : disj (muts x ++ frees x) (marks x);
  pl_scoped : scoped (frees x ++ muts x ++ marks x ++ R) (muts x ++ R) s = true;
  pl_used : m = Par -> forall n, In n (frees x) -> avoids [n] s = false;
  pl_calls : calls_in (closures x) s = true;
  pl_table : calls_ok (closures x);
  pl_omarks : Forall (old x) (marks x)
}.
Definition hides (m : mode) (comp : nat -> code -> ctx -> cres (code * ctx)) (se : bool -> bool -> bool -> bool -> bool -> nat -> bool) : Prop :=
  forall i s x c y, comp i s x = COk (c, y) -> forall R, place m R s x ->
    table_scoped (closures y) = table_scoped (closures x)
      && se (0 <? ncomb x) (nonempty (muts x)) (negb (avoids (muts x) s)) (nonempty (frees y)) (negb (avoids R s)) i.

Lemma table_app a b : table_scoped (a ++ b) = table_scoped a && table_scoped b.
Proof. apply forallb_app. Qed.
Lemma table_le x y : ctx_le x y -> table_scoped (closures x) = false -> table_scoped (closures y) = false.
Proof. intros L H. destruct (le_table L) as (new & -> & _). rewrite table_app, H. reflexivity. Qed.
Lemma nonempty_app a b : nonempty (a ++ b) = nonempty a || nonempty b.
Proof. destruct a, b; reflexivity. Qed.
Lemma nonempty_length (l : list name) : nonempty l = (0 <? length l).
Proof. destruct l; reflexivity. Qed.
Lemma meets_self x : disj (muts x) (frees x) -> meets x (muts x) = nonempty (muts x).
Proof.
  intros H. unfold meets. rewrite apart_app, (disj_apart H), apart_self. cbn [andb]. apply negb_involutive.
Qed.
Lemma meets_in x n : In n (frees x) -> meets x [n] = true.
Proof.
  intros H. unfold meets. rewrite apart_app. destruct (apart (frees x) [n]) eqn:E; [|reflexivity]. exfalso.
  apply apart_spec in E. apply (E n H). left. reflexivity.
Qed.
Lemma meets_none x R : disj R (frees x ++ muts x ++ marks x) -> meets x R = false.
Proof. intros H. unfold meets. rewrite disj_apart; [reflexivity|]. intros n Hn K. apply (H n Hn). rewrite app_assoc. apply in_or_app. auto. Qed.
Lemma nodup_tail (a b : list name) : NoDup (a ++ b) -> NoDup a /\ forall n, In n a -> ~ In n b.
Proof.
  induction a as [|n a IH]; intros H; [split; [constructor|intros n []]|]. cbn in H. inversion H as [|? ? H1 H2]; subst.
  destruct (IH H2) as [H3 H4]. split.
  - constructor; [|exact H3]. intros K. apply H1, in_or_app. auto.
  - intros k [<-|K]; [intros L; apply H1, in_or_app; auto|exact (H4 k K)].
Qed.

Lemma seq_hides comp m re se : shape_ih G comp m -> holds comp -> uses comp re -> hides m comp se ->
  (forall p h st hid i, se p h st true hid i = true -> re p true true i = true) ->
  forall l s x c y, compile_seq comp l s x = COk (c, y) -> forall R, place m R s x ->
    table_scoped (closures y) = table_scoped (closures x)
      && seq_sees (fun j => 0 <? ncard G m j) re se (0 <? ncomb x) (nonempty (muts x)) (negb (avoids (muts x) s)) (nonempty (frees y)) (negb (avoids R s)) l.
Proof.
  intros HS HK HU HH HL. induction l as [|i l IH]; intros s x c y H R P.
  - cbn [compile_seq] in H. apply COk_inj, pair_inj in H. destruct H as [<- <-]. cbn. rewrite andb_true_r. reflexivity.
  - cbn [compile_seq] in H. apply cbind_ok in H. destruct H as ([s1 x1] & E1 & H).
    apply cbind_ok in H. destruct H as ([c2 x2] & E2 & H). apply COk_inj, pair_inj in H. destruct H as [<- <-]. cbn [closures frees with_ncomb].
    pose proof (IH _ _ _ _ E1 R P) as T1.
    pose proof (compile_seq_shape HS E1) as Sh. pose proof (HS _ _ _ _ _ E2) as Sh2.
    destruct (sh_frees Sh) as (xs & Fx & _). destruct (sh_frees Sh2) as (ys & Fy & Ly).
    assert (LV : nonempty (frees x1) = nonempty (frees x2) || (0 <? ncard G m i)) by (rewrite Fy, nonempty_app, (nonempty_length ys), Ly; reflexivity).
    rewrite LV in T1.
    assert (Q : table_scoped (closures x1) = true -> place m R s1 x1 /\ negb (avoids (muts x) s1) = seq_reaches re (0 <? ncomb x) (nonempty (muts x)) (negb (avoids (muts x) s)) l
        /\ negb (avoids R s1) = seq_reaches re (0 <? ncomb x) false (negb (avoids R s)) l).
    { intros TT. rewrite TT in T1. symmetry in T1. apply andb_true_iff in T1. destruct T1 as [_ T1]. destruct P as [P1 P2 P3 P4 P5 P6 P7 P8 P9 P10].
      destruct (seq_uses HS HU E1) as [_ U]. rewrite !Forall_app in P1. destruct P1 as (P1 & P1' & P1'').
      rewrite Fx in P2. pose proof (nodup_tail P2) as [N1 N2].
      assert (UM : avoids (muts x) s1 = negb (seq_reaches re (0 <? ncomb x) (meets x (muts x)) (negb (avoids (muts x) s)) l)).
      { apply U; [exact P1| |]. exists xs; split; [exact Fx|]. intros n Hn K. apply (P3 n Hn). rewrite Fx. apply in_or_app. auto.
        intros n Hn. apply P5, in_or_app. auto. }
      assert (UR : avoids R s1 = negb (seq_reaches re (0 <? ncomb x) (meets x R) (negb (avoids R s)) l)).
      { apply U; [exact P1''| |]. exists xs; split; [exact Fx|]. intros n Hn K. apply (P4 n Hn). rewrite Fx. apply in_or_app. left. apply in_or_app. auto.
        intros n Hn K. apply (P4 n Hn). apply in_or_app. right. apply in_or_app. auto. }
      destruct (@seq_holds G comp m HS HK l s x s1 x1 (muts x ++ marks x ++ R) (muts x ++ R) E1) as (S1 & C1 & Tb1); try assumption; try solve [inc].
      split; [|split].
      - constructor; rewrite ?(sh_muts Sh), ?(sh_marks Sh); try assumption.
        + pose proof (sh_le Sh) as Le. apply Forall_app. split; [eapply olds_le; eassumption|]. apply Forall_app. split; [|eapply olds_le; eassumption].
          eapply olds_le; [exact Le|]. rewrite Fx in P1'. apply Forall_app in P1'. tauto.
        + intros n Hn K. apply (P3 n Hn). rewrite Fx. apply in_or_app. auto.
        + intros n Hn K. apply (P4 n Hn). rewrite Fx, <- app_assoc. apply in_app_or in K. apply in_or_app. destruct K; [auto|right; apply in_or_app; auto].
        + intros n Hn. apply P5. rewrite Fx. apply in_app_or in Hn. apply in_or_app. destruct Hn; [auto|right; apply in_or_app; auto].
        + intros -> n Hn. assert (Hx : In n (frees x)) by (rewrite Fx; apply in_or_app; auto). rewrite (U [n]).
          * rewrite (meets_in Hx), (P7 eq_refl n Hx). cbn [negb]. assert (NE : nonempty (frees x2) || (0 <? ncard G Par i) = true) by (rewrite <- LV; destruct (frees x1); [destruct Hn|reflexivity]).
            rewrite NE in T1. rewrite (seq_left HL T1). reflexivity.
          * constructor; [|constructor]. rewrite Forall_forall in P1'. exact (P1' n Hx).
          * exists xs. split; [exact Fx|]. intros k [<-|[]]. exact (N2 n Hn).
          * intros k [<-|[]]. apply P5, in_or_app. auto.
        + eapply olds_le; [apply (sh_le Sh)|exact P10].
      - rewrite UM, negb_involutive, (meets_self P3). reflexivity.
      - rewrite UR, negb_involutive, (meets_none P4). reflexivity. }
    destruct (table_scoped (closures x1)) eqn:TT.
    + destruct (Q eq_refl) as (P1 & QM & QR). rewrite (HH _ _ _ _ _ E2 R P1), TT, (sh_muts Sh), QM, QR. clear Q. cbn [andb].
      symmetry in T1. apply andb_true_iff in T1. destruct T1 as [T0 T1]. rewrite T0. cbn [andb]. destruct l as [|j l].
      * cbn [compile_seq] in E1. apply COk_inj, pair_inj in E1. destruct E1 as [<- <-]. reflexivity.
      * destruct (seq_uses HS HU E1) as [N1 _]. rewrite (N1 ltac:(discriminate)). remember (j :: l) as jl eqn:Ejl. cbn [seq_sees]. rewrite Ejl. rewrite <- Ejl. rewrite T1. reflexivity.
    + rewrite (table_le (sh_le Sh2) TT). destruct (table_scoped (closures x)); [|reflexivity]. cbn [andb] in *. destruct l as [|j l]; [discriminate T1|].
      remember (j :: l) as jl eqn:Ejl. cbn [seq_sees]. rewrite Ejl. rewrite <- Ejl. rewrite <- T1. reflexivity.
Qed.

Lemma branches_hides comp m se : shape_ih G comp m -> holds comp -> hides m comp se ->
  forall l nv x0 ms bf s x bs y, compile_branches comp (save_scope x0) bf s l x = COk (bs, y) ->
    Forall (fun j => ncard G m j = nv) l -> marks x = marks x0 ->
    ctx_le x0 x -> muts x0 = ms ++ [bf] -> ncomb x0 = 0 ->
    forall R, place m R s (with_muts x0 ms) -> ~ In bf (ms ++ frees x0 ++ marks x0 ++ R) -> old x0 bf ->
    calls_ok (closures x) ->
    table_scoped (closures y) = table_scoped (closures x) && alt_sees se (nonempty ms) (negb (avoids ms s)) (nonempty (frees y)) (negb (avoids R s)) l.
Proof.
  intros HS HK HH. induction l as [|i l IH]; intros nv x0 ms bf s x bs y H HF Mk L Ms Nc R P HB Ob T; [discriminate|].
  pose proof (compile_branches_shape HS HF H) as (_ & _ & _ & xs & Fx & Lxs). cbn [sc_frees save_scope] in Fx.
  pose proof P as [P1 P2 P3 P4 P5 P6 P7 P8 P9 P10]. cbn [muts frees marks with_muts closures] in *.
  assert (O1 : Forall (old x0) (ms ++ frees x0 ++ R)) by (eapply Forall_impl; [|exact P1]; intros n; apply old_le; constructor; try (cbn; lia); exists []; rewrite app_nil_r; split; [reflexivity|constructor]).
  assert (P10' : Forall (old x0) (marks x0)) by (eapply Forall_impl; [|exact P10]; intros n; apply old_le; constructor; try (cbn; lia); exists []; rewrite app_nil_r; split; [reflexivity|constructor]).
  assert (Hb1 : ~ In bf ms) by (intros K; apply HB, in_or_app; auto).
  assert (Hb2 : ~ In bf (frees x0)) by (intros K; apply HB, in_or_app; right; apply in_or_app; auto).
  assert (Hb3 : ~ In bf (marks x0)) by (intros K; apply HB, in_or_app; right; apply in_or_app; right; apply in_or_app; auto).
  assert (Hb4 : ~ In bf R) by (intros K; apply HB, in_or_app; right; apply in_or_app; right; apply in_or_app; auto).
  pose proof (Forall_inv HF) as Hi. pose proof (Forall_inv_tail HF) as HF'. cbn beta in Hi. destruct l as [|j l].
  - cbn [compile_branches] in H. apply cbind_ok in H. destruct H as (x1 & Ep & H).
    apply pop_mut_ok in Ep. destruct Ep as [_ Ep]. simpl in Ep. rewrite Ms, removelast_last in Ep.
    apply cbind_ok in H. destruct H as ([c y'] & Ec & H). apply COk_inj, pair_inj in H. destruct H as [_ ->].
    assert (L1 : ctx_le x0 x1) by (rewrite Ep; eapply ctx_le_trans; [exact L|]; eapply ctx_le_trans; [apply restore_scope_le|apply with_muts_le]).
    assert (F1 : frees x1 = frees x0) by (rewrite Ep; reflexivity).
    assert (M1 : muts x1 = ms) by (rewrite Ep; reflexivity).
    assert (N1 : ncomb x1 = 0) by (rewrite Ep; exact Nc).
    assert (K1 : marks x1 = marks x0) by (rewrite Ep; exact Mk).
    assert (C1 : closures x1 = closures x) by (rewrite Ep; reflexivity).
    assert (Q : place m R s x1).
    { constructor; rewrite ?F1, ?M1, ?K1, ?C1; try assumption; [eapply olds_le; eassumption|eapply calls_in_le; [exact L|exact P8]|eapply olds_le; [exact L1|exact P10']]. }
    rewrite (HH _ _ _ _ _ Ec R Q), M1, N1, C1. reflexivity.
  - remember (j :: l) as jl eqn:Ejl. cbn [compile_branches] in H. rewrite Ejl in H. rewrite <- Ejl in H.
    apply cbind_ok in H. destruct H as ([c x1] & Ec & H). apply cbind_ok in H. destruct H as ([cs y'] & Es & H).
    apply COk_inj, pair_inj in H. destruct H as [_ ->].
    pose proof (HS _ _ _ _ _ Ec) as Sh.
    assert (L0 : ctx_le x0 (restore_scope (save_scope x0) x)) by (eapply ctx_le_trans; [exact L|apply restore_scope_le]).
    assert (L1 : ctx_le x0 (with_ncomb x1 (S (ncomb x1)))).
    { eapply ctx_le_trans; [exact L0|]. eapply ctx_le_trans; [apply (sh_le Sh)|apply with_ncomb_le]. }
    destruct (sh_frees Sh) as (xs1 & Fx1 & Lx1). cbn [frees restore_scope with_ncomb with_muts with_frees sc_frees save_scope] in Fx1.
    assert (FE : frees x1 = frees y) by (apply (@same_frees _ _ xs1 xs); congruence).
    set (z := restore_scope (save_scope x0) x) in *.
    assert (Fz : frees z = frees x0) by reflexivity.
    assert (Mz : muts z = ms ++ [bf]) by (cbn; exact Ms).
    assert (Kz : marks z = marks x0) by (cbn; exact Mk).
    assert (Cz : closures z = closures x) by reflexivity.
    assert (Nz : ncomb z = 0) by exact Nc.
    assert (Sz : scoped (frees z ++ muts z ++ marks z ++ R) (muts z ++ R) (CSetBool bf false s) = true).
    { rewrite Fz, Mz, Kz. cbn [scoped]. ands; [rewrite !in_app_iff; cbn [In]; tauto|rewrite !in_app_iff; cbn [In]; tauto|mono P6]. }
    assert (Q : place m R (CSetBool bf false s) z).
    { constructor; try exact Sz; rewrite ?Fz, ?Mz, ?Kz, ?Cz; try assumption.
      - rewrite <- app_assoc. apply Forall_app in O1. destruct O1 as [O1 O2]. apply Forall_app. split; [eapply olds_le; eassumption|].
        constructor; [eapply old_le; eassumption|]. eapply olds_le; eassumption.
      - intros n Hn. apply in_app_or in Hn. destruct Hn as [Hn|[<-|[]]]; [exact (P3 n Hn)|exact Hb2].
      - intros n Hn K. rewrite !in_app_iff in K. cbn [In] in K. destruct K as [K|[[K|[<-|[]]]|K]]; [| |exact (Hb4 Hn)|];
          apply (P4 n Hn); rewrite !in_app_iff; tauto.
      - intros n Hn K. rewrite !in_app_iff in Hn. cbn [In] in Hn. destruct Hn as [[Hn|[<-|[]]]|Hn]; [|exact (Hb3 K)|]; apply (P5 n); auto; rewrite in_app_iff; tauto.
      - intros E n Hn. cbn [avoids]. rewrite (P7 E n Hn), andb_false_r. reflexivity.
      - cbn [calls_in]. eapply calls_in_le; [exact L|exact P8].
      - eapply olds_le; [exact L0|exact P10']. }
    assert (T1 : calls_ok (closures x1)).
    { destruct (HK _ _ _ _ _ (muts z ++ marks z ++ R) (muts z ++ R) Ec) as (_ & _ & T1); [inc|inc|inc|exact Sz|apply (pl_calls Q)|rewrite Cz; exact T|exact T1]. }
    assert (KM : marks (with_ncomb x1 (S (ncomb x1))) = marks x0) by (cbn; rewrite (sh_marks Sh); exact Mk).
    rewrite (IH nv x0 ms bf s (with_ncomb x1 (S (ncomb x1))) cs y Es HF' KM L1 Ms Nc R P HB Ob T1).
    cbn [closures with_ncomb]. rewrite (HH _ _ _ _ _ Ec R Q), Cz, Mz, Nz, FE. rewrite Ejl. cbn [alt_sees].
    assert (N : nonempty (ms ++ [bf]) = true) by (destruct ms; reflexivity). rewrite N. cbn [avoids].
    assert (B : mem bf (ms ++ [bf]) = true) by (apply mem_In, in_or_app; right; left; reflexivity). rewrite B, (not_mem Hb4). cbn [negb andb Nat.ltb Nat.leb].
    rewrite <- andb_assoc. reflexivity.
Qed.

Lemma fresh_nodup k n : NoDup (map (NVar k) (seq 0 n)).
Proof.
  generalize 0. induction n as [|n IH]; intros j; [constructor|]. cbn. constructor; [|apply IH].
  intros K. apply in_map_iff in K. destruct K as (i & E & K). injection E as ->. apply in_seq in K. lia.
Qed.
Lemma vars_marks x l k n : Forall (old x) l -> prefix_uid x <= k -> disj (map (NVar k) (seq 0 n)) l.
Proof. intros H L v Hv K. apply in_map_iff in Hv. destruct Hv as (j & <- & _). exact (fresh_disj H L K). Qed.
Lemma used_in n l : In n l -> apart l [n] = false.
Proof. intros H. destruct (apart l [n]) eqn:E; [|reflexivity]. exfalso. apply apart_spec in E. apply (E n H). left. reflexivity. Qed.

(** The scope of an option or of a list: nothing of the enclosing scopes follows. *)
Lemma scope_hides fuel e x r x1 sc x2 opt body x4 x5 R s : coherent G ->
  hides Par (compile G fuel Par) (sees G fuel Par) ->
  next_free_var x = COk (r, x1) -> open_scope (card G e) x1 = (sc, x2) ->
  compile G fuel Par e (stores r opt (frees (push_mut r x2))) (push_mut r x2) = COk (body, x4) ->
  close_scope sc (with_ncomb x4 (S (ncomb x4))) = COk x5 ->
  place Par R s x ->
  table_scoped (closures x5) = table_scoped (closures x) && sees G fuel Par false true true false false e.
Proof.
  intros HC IH Er Eo Ec Ex [P1 P2 P3 P4 P5 P6 P7 P8 P9 P10]. apply next_free_var_ok in Er. destruct Er as [F E1].
  pose proof (compile_shape (m := Par) HC Ec) as Sh. apply close_scope_ok in Ex. destruct Ex as [Fy Ex]. cbn [frees with_ncomb] in Fy.
  pose proof (open_scope_le (card G e) x1) as Lo. rewrite Eo in Lo. cbn [snd] in Lo.
  apply pair_inj in Eo. destruct Eo as [Es E2].
  assert (M3 : muts (push_mut r x2) = [r]) by (rewrite <- E2; reflexivity).
  assert (N3 : ncomb (push_mut r x2) = 0) by (rewrite <- E2; reflexivity).
  assert (K3 : marks (push_mut r x2) = marks x) by (rewrite <- E2, E1; reflexivity).
  assert (T3 : closures (push_mut r x2) = closures x) by (rewrite <- E2, E1; reflexivity).
  assert (F3 : frees (push_mut r x2) = map (NVar (prefix_uid x)) (seq 0 (card G e))) by (rewrite <- E2, E1; reflexivity).
  assert (P3' : prefix_uid (push_mut r x2) = S (prefix_uid x)) by (rewrite <- E2, E1; reflexivity).
  assert (L3 : ctx_le x (push_mut r x2)).
  { eapply ctx_le_trans; [|apply with_muts_le]. eapply ctx_le_trans; [|exact Lo]. rewrite E1. apply with_frees_le. }
  assert (Ir : In r (frees x)) by (rewrite F; apply in_or_app; right; left; reflexivity).
  assert (Or : Forall (old x) [r]) by (constructor; [|constructor]; rewrite Forall_forall in P1; apply P1; rewrite !in_app_iff; auto).
  assert (T5 : closures x5 = closures x4) by (rewrite Ex; reflexivity). rewrite T5.
  assert (Q : place Par [] (stores r opt (frees (push_mut r x2))) (push_mut r x2)).
  { constructor; rewrite ?M3, ?K3, ?T3, ?F3, ?app_nil_r.
    - apply Forall_app. split; [eapply olds_le; eassumption|]. apply Forall_forall. intros n Hn. apply in_map_iff in Hn. destruct Hn as (k & <- & _).
      change (prefix_uid x < prefix_uid (push_mut r x2)). rewrite P3'. lia.
    - apply fresh_nodup.
    - apply (fresh_vars_disj (x := x)); [exact Or|lia].
    - intros n [].
    - intros n Hn. apply in_app_or in Hn. destruct Hn as [[<-|[]]|Hn]; [apply P5, in_or_app; auto|]. apply (vars_marks (x := x) P10 (le_n _) Hn).
    - unfold stores. destruct opt; cbn [scoped]; ands; try reflexivity; rewrite ?in_app_iff; cbn [In]; auto; inc.
    - intros _ n Hn. unfold stores. destruct opt; cbn [avoids]; rewrite (used_in Hn), andb_false_r; reflexivity.
    - unfold stores. destruct opt; reflexivity.
    - exact P9.
    - eapply olds_le; eassumption. }
  rewrite (IH _ _ _ _ _ Ec [] Q), T3, M3, N3, Fy, avoids_nil. cbn [nonempty negb Nat.ltb Nat.leb].
  assert (A : avoids [r] (stores r opt (frees (push_mut r x2))) = false) by (unfold stores; destruct opt; cbn [avoids mem existsb]; rewrite name_eqb_refl; reflexivity).
  rewrite A. reflexivity.
Qed.

Lemma span_hides fuel (rg : bool) e x lo x1 r x2 s body x3 R : coherent G ->
  hides Par (compile G fuel Par) (sees G fuel Par) ->
  next_mark x = (lo, x1) -> next_free_var_skip (card G e) x1 = COk (r, x2) ->
  compile G fuel Par e (CLetSpan r rg lo s) (push_mark lo x2) = COk (body, x3) -> place Par R s x ->
  table_scoped (closures x3) = table_scoped (closures x)
    && sees G fuel Par (0 <? ncomb x) (nonempty (muts x)) (negb (avoids (muts x) s)) (nonempty (frees x3)) (negb (avoids R s)) e.
Proof.
  intros HC IH Em Er Ec [P1 P2 P3 P4 P5 P6 P7 P8 P9 P10]. apply next_free_var_skip_ok in Er. destruct Er as (a & b & F & Lb & E2).
  apply pair_inj in Em. destruct Em as [El E1].
  assert (F' : frees x = a ++ [r] ++ b) by (rewrite <- F, <- E1; reflexivity).
  assert (F2 : frees (push_mark lo x2) = a ++ b) by (rewrite E2; reflexivity).
  assert (M2 : muts (push_mark lo x2) = muts x) by (rewrite E2, <- E1; reflexivity).
  assert (N2 : ncomb (push_mark lo x2) = ncomb x) by (rewrite E2, <- E1; reflexivity).
  assert (K2 : marks (push_mark lo x2) = marks x ++ [lo]) by (rewrite E2, <- E1; reflexivity).
  assert (T2 : closures (push_mark lo x2) = closures x) by (rewrite E2, <- E1; reflexivity).
  assert (U2 : mark_uid (push_mark lo x2) = S (mark_uid x)) by (rewrite E2, <- E1; reflexivity).
  assert (L2 : ctx_le x (push_mark lo x2)).
  { rewrite E2, <- E1. eapply ctx_le_trans; [apply fresh_mark_le|]. eapply ctx_le_trans; [|apply with_marks_le]. apply with_frees_le. }
  assert (Hl : forall l, Forall (old x) l -> ~ In lo l) by (intros l Hl; rewrite <- El; exact (mark_disj Hl)).
  pose proof P1 as O. rewrite !Forall_app in O. destruct O as (O1 & O2 & O3).
  assert (Ir : In r (frees x)) by (rewrite F'; apply in_or_app; right; left; reflexivity).
  assert (Hr1 : ~ In r (muts x)) by (apply (disj_in P3), Ir).
  assert (Hr2 : ~ In r R) by (intros K; apply (P4 r K), in_or_app; auto).
  assert (Iab : incl (a ++ b) (frees x)) by (rewrite F'; intros n Hn; rewrite in_app_iff in *; cbn [app In] in *; tauto).
  assert (NR : NoDup (a ++ b) /\ ~ In r (a ++ b)) by (rewrite F' in P2; apply NoDup_remove in P2; exact P2). destruct NR as [NR1 NR2].
  assert (Q : place Par R (CLetSpan r rg lo s) (push_mark lo x2)).
  { constructor; rewrite ?M2, ?K2, ?T2, ?F2.
    - eapply olds_le; [exact L2|]. apply Forall_app. split; [exact O1|]. apply Forall_app. split; [|exact O3]. apply Forall_forall. intros n Hn. rewrite Forall_forall in O2. apply O2, Iab, Hn.
    - exact NR1.
    - exact (disj_sub P3 Iab).
    - intros n Hn K. rewrite !in_app_iff in K. cbn [In] in K. destruct K as [K|[K|[K|[<-|[]]]]].
      + apply (P4 n Hn), in_or_app. left. apply Iab, in_or_app, K.
      + apply (P4 n Hn). rewrite !in_app_iff. auto.
      + apply (P4 n Hn). rewrite !in_app_iff. auto.
      + exact (Hl R O3 Hn).
    - intros n Hn K. apply in_app_or in K. apply in_app_or in Hn. destruct K as [K|[<-|[]]].
      + apply (P5 n); [|exact K]. apply in_or_app. destruct Hn as [Hn|Hn]; [auto|]. right. apply Iab, Hn.
      + destruct Hn as [Hn|Hn]; [exact (Hl _ O1 Hn)|exact (Hl _ O2 (Iab _ Hn))].
    - cbn [scoped]. ands; [rewrite !in_app_iff; cbn [In]; tauto|]. rewrite F' in P6. mono P6.
    - intros _ n Hn. cbn [avoids]. rewrite drop_none; [rewrite (P7 eq_refl n (Iab n Hn)), andb_false_r; reflexivity|]. intros [->|[]]. exact (NR2 Hn).
    - exact P8.
    - exact P9.
    - apply Forall_app. split; [eapply olds_le; eassumption|]. constructor; [|constructor]. rewrite <- El. change (S (mark_uid x) <= mark_uid (push_mark lo x2)). rewrite U2. lia. }
  rewrite (IH _ _ _ _ _ Ec R Q), T2, M2, N2. cbn [avoids]. rewrite (not_mem (Hl _ O1)), (not_mem (Hl _ O3)), (drop_none Hr1), (drop_none Hr2). reflexivity.
Qed.

Lemma compile_hides fuel : forall m, cohm G m -> hides m (compile G fuel m) (sees G fuel m).
Proof.
  induction fuel as [|fuel IH]; intros m0 HC i s x c y H; [discriminate|].
  cbn [compile] in H. apply cbind_ok in H. destruct H as (m & Em & H).
  assert (HM : cohm G m) by (destruct m; [exact I|destruct (eff_par Em) as [-> _]; exact HC]).
  destruct (expr_of G i) as [e|] eqn:Ee; [|discriminate].
  assert (HE : m = Par -> coh_expr G i e).
  { intros ->. destruct (eff_par Em) as [-> Hu]. exact (HC i e Ee Hu). }
  assert (Eq1 : forall p h st lv hid, sees G (S fuel) m0 p h st lv hid i = match e, m with
      | (EStr _ | EAny | EClass _ | ENT _ | EExt _), _ => true
      | ESeq l, m => seq_sees (fun j => 0 <? ncard G m j) (reaches G fuel m) (sees G fuel m) p h st lv hid l
      | EAlt l, m => negb (p && hid) && alt_sees (sees G fuel m) h (if p then h else st) lv (if p then false else hid) l
      | (EOpt j | EStar j | EPlus j), Rec | (ENot j | EAnd j), _ => sees G fuel Rec p h false lv false j
      | (EOpt j | EStar j | EPlus j), Par => sees G fuel Par false true true false false j
      | EAct j _ _, Rec => sees G fuel Rec p h st lv hid j
      | EAct j _ _, Par => sees G fuel Par false false false false (hid || st || lv) j
      | (EAsc j _ | ESpan j | ERange j), m => sees G fuel m p h st lv hid j
      end) by (intros; cbn [sees]; rewrite Ee, (mode_at_eff Em); reflexivity).
  pose proof (IH m HM) as IHm. pose proof (IH Rec I) as IHr.
  assert (HSh : shape_ih G (compile G fuel m) m) by (intros ? ? ? ? ? K; eapply compile_shape; eassumption).
  assert (HSr : shape_ih G (compile G fuel Rec) Rec) by (intros ? ? ? ? ? K; eapply compile_shape; [exact I|eassumption]).
  intros R P'. rewrite Eq1. clear Eq1.
  assert (P : place m R s x).
  { destruct P' as [P1 P2 P3 P4 P5 P6 P7 P8 P9 P10]. constructor; try assumption. intros ->. destruct (eff_par Em) as [-> _]. exact (P7 eq_refl). }
  (* the body of a predicate, option or repetition without value *)
  assert (HB : forall j x' body x1, compile G fuel Rec j CState x' = COk (body, x1) -> ctx_le x x' -> frees x' = frees x -> muts x' = muts x -> marks x' = marks x ->
      ncomb x' = ncomb x -> closures x' = closures x -> frees x1 = frees x /\
     table_scoped (closures x1) = table_scoped (closures x) && sees G fuel Rec (0 <? ncomb x) (nonempty (muts x)) false (nonempty (frees x)) false j).
  { intros j x' body x1 E L F M K N C. pose proof (HSr _ _ _ _ _ E) as Sh. destruct (sh_frees Sh) as (xs & Fx & Lx). cbn in Lx. destruct xs; [|discriminate]. rewrite app_nil_r in Fx.
    split; [congruence|]. destruct P as [P1 P2 P3 P4 P5 P6 P7 P8 P9 P10].
    assert (Q : place Rec [] CState x').
    { constructor; rewrite ?F, ?M, ?K, ?C, ?app_nil_r; try assumption; try reflexivity; try (intros n []); try discriminate; [|eapply olds_le; eassumption].
      eapply olds_le; [exact L|]. rewrite !Forall_app in P1. apply Forall_app. tauto. }
    rewrite (IHr _ _ _ _ _ E [] Q), C, N, M, <- Fx, F. cbn [avoids negb]. reflexivity. }
  assert (HN : forall b, b = b && true) by (intros; rewrite andb_true_r; reflexivity).
  destruct e as [lit| |cls|id|p|l|l|e|e|e|e|e|e bx f|e t|e|e].
  - apply COk_inj, pair_inj in H. destruct H as [<- <-]. apply HN.
  - destruct m.
    + apply COk_inj, pair_inj in H. destruct H as [<- <-]. apply HN.
    + apply cbind_ok in H. destruct H as ([v x1] & E & H). apply COk_inj, pair_inj in H. destruct H as [<- <-]. apply next_free_var_ok in E. destruct E as [_ ->]. apply HN.
  - apply cbind_ok in H. destruct H as ([v x1] & E & H). apply cbind_ok in H. destruct H as (k & Ek & H). cbn [next_mark] in H.
    apply COk_inj, pair_inj in H. destruct H as [<- <-]. destruct m.
    + apply COk_inj, pair_inj in E. destruct E as [<- <-]. apply HN.
    + apply next_free_var_ok in E. destruct E as [_ ->]. apply HN.
  - destruct m.
    + apply COk_inj, pair_inj in H. destruct H as [<- <-]. apply HN.
    + apply cbind_ok in H. destruct H as ([vs x1] & E & H). apply COk_inj, pair_inj in H. destruct H as [<- <-]. apply pop_vars_ok in E. destruct E as (_ & _ & ->). apply HN.
  - destruct m.
    + apply COk_inj, pair_inj in H. destruct H as [<- <-]. apply HN.
    + apply cbind_ok in H. destruct H as ([vs x1] & E & H). apply COk_inj, pair_inj in H. destruct H as [<- <-]. apply pop_vars_ok in E. destruct E as (_ & _ & ->). apply HN.
  - apply (seq_hides HSh (compile_holds HM) (compile_uses HM) IHm (fun p h st hid j => @sees_left fuel m p h st hid j) H P).
  - (* choice *)
    destruct (success_as_closure s x) as [s1 x1] eqn:Es. cbn [next_mark next_branch branch_uid prefix_uid mark_uid counter_uid closure_uid closures frees marks muts ncomb] in H.
    apply cbind_ok in H. destruct H as ([bs y'] & E & H). destruct bs as [|b r]; [discriminate|].
    apply COk_inj, pair_inj in H. destruct H as [<- <-].
    pose proof P as [P1 P2 P3 P4 P5 P6 P7 P8 P9 P10]. pose proof P1 as O. rewrite !Forall_app in O. destruct O as (O1 & O2 & O3).
    assert (X : frees x1 = frees x /\ muts x1 = muts x /\ marks x1 = marks x /\ ncomb x1 = 0 /\ ctx_le x x1 /\ (mark_uid x1 = mark_uid x /\ branch_uid x1 = branch_uid x) /\
      place m R s1 x1 /\ negb (avoids (muts x) s1) = (if 0 <? ncomb x then nonempty (muts x) else negb (avoids (muts x) s))
      /\ negb (avoids R s1) = (if 0 <? ncomb x then false else negb (avoids R s))
      /\ table_scoped (closures x1) = table_scoped (closures x) && negb ((0 <? ncomb x) && negb (avoids R s))).
    { pose proof (success_as_closure_le s x) as L. rewrite Es in L. cbn [snd] in L. unfold success_as_closure in Es. destruct (0 <? ncomb x) eqn:En; apply pair_inj in Es; destruct Es as [<- <-].
      - do 4 (split; [reflexivity|]). split; [exact L|]. split; [auto|]. split; [|split; [|split]].
        + constructor; cbn [frees muts marks closures]; try assumption.
          * cbn [scoped]. ands; inc.
          * intros Hm n Hn. cbn [avoids]. rewrite (used_in Hn), andb_false_r. reflexivity.
          * cbn [calls_in]. apply existsb_exists. eexists. split; [apply in_or_app; right; left; reflexivity|].
            cbn [fst snd kmuts kfrees kmarks]. rewrite !Nat.eqb_refl. reflexivity.
          * apply calls_ok_snoc; [exact P9|exact P8].
        + cbn [avoids]. rewrite (disj_apart P3), apart_self. rewrite disj_apart by (intros n Hn; apply P5, in_or_app; auto). rewrite !andb_true_r, negb_involutive. reflexivity.
        + cbn [avoids]. rewrite !disj_apart; [reflexivity|..]; intros n Hn K; apply (P4 n Hn); rewrite !in_app_iff; auto.
        + cbn [closures]. rewrite table_app. cbn [table_scoped forallb snd]. f_equal. rewrite andb_true_r. cbn [andb]. rewrite negb_involutive.
          unfold closure_scoped. cbn [kmuts kfrees kmarks kbody]. destruct (avoids R s) eqn:Ea.
          * eapply scoped_avoid; [exact P6| |apply incl_refl|exact Ea]. inc.
          * match goal with |- ?a = false => destruct a eqn:Esc; [|reflexivity] end. exfalso. apply (@scoped_disj _ R) in Esc; [congruence|].
            intros n Hn K. apply (P4 n Hn). rewrite !in_app_iff in *. tauto.
      - do 3 (split; [reflexivity|]). split; [apply Nat.ltb_ge in En; lia|]. split; [exact L|]. split; [auto|]. split; [exact P|]. cbn. rewrite andb_true_r. auto. }
    destruct X as (X1 & X2 & X2' & X3 & X4 & (X6 & X7) & X5 & X8 & X8' & X9).
    match type of E with compile_branches _ (save_scope ?z) _ _ _ ?z = _ => set (x4 := z) in * end.
    set (mk := NMark (S (mark_uid x1))) in *. set (bf := NBranch (S (branch_uid x1))) in *.
    assert (M4 : muts x4 = muts x ++ [bf]) by (cbn; rewrite X2; reflexivity).
    assert (L4 : ctx_le x1 x4).
    { eapply ctx_le_trans; [apply fresh_mark_le|]. eapply ctx_le_trans; [apply fresh_branch_le|]. apply with_muts_le. }
    assert (F4 : frees x4 = frees x) by exact X1. assert (K4 : marks x4 = marks x) by exact X2'.
    assert (C4 : closures x4 = closures x1) by reflexivity.
    assert (HF : Forall (fun j => ncard G m j = ncard G m i) l).
    { destruct m; [apply Forall_forall; reflexivity|exact (HE eq_refl)]. }
    assert (Q : place m R s1 (with_muts x4 (muts x))).
    { destruct X5 as [Q1 Q2 Q3 Q4 Q5 Q6 Q7 Q8 Q9 Q10]. assert (L5 : ctx_le x1 (with_muts x4 (muts x))) by (eapply ctx_le_trans; [exact L4|apply with_muts_le]).
      rewrite ?X1, ?X2, ?X2' in *.
      constructor; cbn [frees muts marks closures with_muts]; rewrite ?F4, ?K4, ?C4; try assumption; eapply olds_le; eassumption. }
    assert (Hb : ~ In bf (muts x ++ frees x4 ++ marks x4 ++ R)).
    { rewrite F4, K4. unfold bf. rewrite X7. apply branch_disj. rewrite !Forall_app. tauto. }
    assert (Ob : old x4 bf) by (unfold bf, x4; cbn; lia).
    assert (T4 : calls_ok (closures x4)) by exact (pl_table X5).
    rewrite (@branches_hides _ m _ HSh (compile_holds HM) IHm _ _ _ _ _ _ _ _ _ E HF eq_refl (ctx_le_refl _) M4 X3 R Q Hb Ob T4).
    rewrite C4, X9, X8, X8'. rewrite <- andb_assoc. reflexivity.
  - (* star *)
    destruct m.
    + apply cbind_ok in H. destruct H as ([body x1'] & E & H). apply cbind_ok in E. destruct E as ([body' x1] & E & E').
      apply COk_inj, pair_inj in E'. destruct E' as [-> <-]. apply COk_inj in H.
      destruct (HB _ _ _ _ E (ctx_le_refl _) eq_refl eq_refl eq_refl eq_refl eq_refl) as (Fb & TB).
      destruct (avoids_repeat H (R := [])) as [_ ->]; [constructor|]. cbn [closures with_ncomb]. rewrite TB, (repeat_frees H). cbn [frees with_ncomb]. rewrite Fb. reflexivity.
    + apply cbind_ok in H. destruct H as ([r x1] & Er & H). destruct (open_scope (card G e) x1) as [sc x2] eqn:Eo.
      apply cbind_ok in H. destruct H as ([body x4'] & E & H). apply cbind_ok in E. destruct E as ([body' x4] & E & E').
      apply COk_inj, pair_inj in E'. destruct E' as [-> <-]. apply cbind_ok in H. destruct H as (x5 & Ec & H).
      destruct (repeat_code 0 s CFailure body x5) as [c6 x6] eqn:E6. apply COk_inj, pair_inj in H. destruct H as [<- <-].
      destruct (avoids_repeat E6 (R := [])) as [_ ->]; [constructor|]. exact (@scope_hides _ _ _ _ _ _ _ false _ _ _ _ _ HM IHm Er Eo E Ec P).
  - destruct m.
    + apply cbind_ok in H. destruct H as ([body x1'] & E & H). apply cbind_ok in E. destruct E as ([body' x1] & E & E').
      apply COk_inj, pair_inj in E'. destruct E' as [-> <-]. apply COk_inj in H.
      destruct (HB _ _ _ _ E (ctx_le_refl _) eq_refl eq_refl eq_refl eq_refl eq_refl) as (Fb & TB).
      destruct (avoids_repeat H (R := [])) as [_ ->]; [constructor|]. cbn [closures with_ncomb]. rewrite TB, (repeat_frees H). cbn [frees with_ncomb]. rewrite Fb. reflexivity.
    + apply cbind_ok in H. destruct H as ([r x1] & Er & H). destruct (open_scope (card G e) x1) as [sc x2] eqn:Eo.
      apply cbind_ok in H. destruct H as ([body x4'] & E & H). apply cbind_ok in E. destruct E as ([body' x4] & E & E').
      apply COk_inj, pair_inj in E'. destruct E' as [-> <-]. apply cbind_ok in H. destruct H as (x5 & Ec & H).
      destruct (repeat_code 1 s CFailure body x5) as [c6 x6] eqn:E6. apply COk_inj, pair_inj in H. destruct H as [<- <-].
      destruct (avoids_repeat E6 (R := [])) as [_ ->]; [constructor|]. exact (@scope_hides _ _ _ _ _ _ _ false _ _ _ _ _ HM IHm Er Eo E Ec P).
  - destruct m.
    + apply cbind_ok in H. destruct H as ([body x1'] & E & H). apply cbind_ok in E. destruct E as ([body' x1] & E & E').
      apply COk_inj, pair_inj in E'. destruct E' as [-> <-]. apply COk_inj in H.
      destruct (HB _ _ _ _ E (ctx_le_refl _) eq_refl eq_refl eq_refl eq_refl eq_refl) as (Fb & TB).
      destruct (avoids_optional H (R := [])) as [_ ->]; [constructor|]. cbn [closures with_ncomb]. rewrite TB, (optional_frees H). cbn [frees with_ncomb]. rewrite Fb. reflexivity.
    + apply cbind_ok in H. destruct H as ([r x1] & Er & H). destruct (open_scope (card G e) x1) as [sc x2] eqn:Eo.
      apply cbind_ok in H. destruct H as ([body x4'] & E & H). apply cbind_ok in E. destruct E as ([body' x4] & E & E').
      apply COk_inj, pair_inj in E'. destruct E' as [-> <-]. apply cbind_ok in H. destruct H as (x5 & Ec & H).
      destruct (optional_code s body x5) as [c6 x6] eqn:E6. apply COk_inj, pair_inj in H. destruct H as [<- <-].
      destruct (avoids_optional E6 (R := [])) as [_ ->]; [constructor|]. exact (@scope_hides _ _ _ _ _ _ _ true _ _ _ _ _ HM IHm Er Eo E Ec P).
  - (* predicates *)
    destruct m; [|discriminate]. apply cbind_ok in H. destruct H as ([body x2'] & E & H).
    apply cbind_ok in E. destruct E as ([body' x2] & E & E').
    apply COk_inj, pair_inj in E'. destruct E' as [-> <-]. apply COk_inj, pair_inj in H. destruct H as [<- <-].
    destruct (HB _ _ _ _ E (fresh_mark_le x) eq_refl eq_refl eq_refl eq_refl eq_refl) as (Fb & TB). cbn [closures with_ncomb frees]. rewrite TB, Fb. reflexivity.
  - destruct m; [|discriminate]. apply cbind_ok in H. destruct H as ([body x2'] & E & H).
    apply cbind_ok in E. destruct E as ([body' x2] & E & E').
    apply COk_inj, pair_inj in E'. destruct E' as [-> <-]. apply COk_inj, pair_inj in H. destruct H as [<- <-].
    destruct (HB _ _ _ _ E (fresh_mark_le x) eq_refl eq_refl eq_refl eq_refl eq_refl) as (Fb & TB). cbn [closures with_ncomb frees]. rewrite TB, Fb. reflexivity.
  - (* action *)
    destruct m; [exact (IHr _ _ _ _ _ H R P)|].
    apply cbind_ok in H. destruct H as ([r x1] & Er & H). destruct (open_scope (card G e) x1) as [sc x2] eqn:Eo.
    apply cbind_ok in H. destruct H as ([body x4'] & E & H). apply cbind_ok in E. destruct E as ([body' x4] & E & E').
    apply COk_inj, pair_inj in E'. destruct E' as [-> <-]. apply cbind_ok in H. destruct H as (x5 & Ec & H).
    apply COk_inj, pair_inj in H. destruct H as [<- <-].
    pose proof (open_scope_le (card G e) x1) as Lo. rewrite Eo in Lo. cbn [snd] in Lo.
    apply next_free_var_ok in Er. destruct Er as [F E1]. apply close_scope_ok in Ec. destruct Ec as [Fy Ex]. apply pair_inj in Eo. destruct Eo as [Es E2].
    cbn [frees with_ncomb] in Fy.
    assert (M2 : muts x2 = []) by (rewrite <- E2; reflexivity).
    assert (N2 : ncomb x2 = 0) by (rewrite <- E2; reflexivity).
    assert (K2 : marks x2 = marks x) by (rewrite <- E2, E1; reflexivity).
    assert (T2 : closures x2 = closures x) by (rewrite <- E2, E1; reflexivity).
    assert (F2 : frees x2 = map (NVar (prefix_uid x)) (seq 0 (card G e))) by (rewrite <- E2, E1; reflexivity).
    assert (U2 : prefix_uid x2 = S (prefix_uid x)) by (rewrite <- E2, E1; reflexivity).
    assert (L2 : ctx_le x x2) by (eapply ctx_le_trans; [|exact Lo]; rewrite E1; apply with_frees_le).
    destruct P as [P1 P2 P3 P4 P5 P6 P7 P8 P9 P10]. pose proof P1 as O. rewrite !Forall_app in O. destruct O as (O1 & O2 & O3).
    assert (If : incl (frees x1) (frees x)) by (rewrite F; apply incl_appl, incl_refl).
    assert (Ir : In r (frees x)) by (rewrite F; apply in_or_app; right; left; reflexivity).
    assert (Hr1 : ~ In r (frees x1)) by (rewrite F in P2; intros K; apply nodup_tail in P2; destruct P2 as [_ P2]; apply (P2 r K); left; reflexivity).
    assert (Hr2 : ~ In r (muts x)) by (apply (disj_in P3), Ir).
    assert (Hr3 : ~ In r R) by (intros K; apply (P4 r K), in_or_app; auto).
    set (R' := frees x1 ++ muts x ++ R).
    assert (OR : Forall (old x) R').
    { unfold R'. rewrite !Forall_app. split; [|auto]. apply Forall_forall. intros n Hn. rewrite Forall_forall in O2. apply O2, If, Hn. }
    assert (DF : disj R' (frees x2)) by (rewrite F2; apply (fresh_vars_disj (x := x)); [exact OR|lia]).
    assert (Hr : ~ In r R') by (unfold R'; rewrite !in_app_iff; tauto).
    match type of E with compile _ _ _ _ ?z _ = _ => set (s' := z) in * end.
    assert (Q : place Par R' s' x2).
    { constructor; rewrite ?M2, ?K2, ?T2; cbn [app].
      - apply Forall_app. split; [|eapply olds_le; eassumption]. rewrite F2. apply Forall_forall. intros n Hn. apply in_map_iff in Hn. destruct Hn as (k & <- & _).
        change (prefix_uid x < prefix_uid x2). rewrite U2. lia.
      - rewrite F2. apply fresh_nodup.
      - intros n [].
      - intros n Hn K. apply in_app_or in K. destruct K as [K|K]; [exact (DF n Hn K)|]. unfold R' in Hn. rewrite !in_app_iff in Hn. destruct Hn as [Hn|[Hn|Hn]].
        + apply (P5 n); [|exact K]. apply in_or_app. right. apply If, Hn.
        + apply (P5 n); [|exact K]. apply in_or_app. auto.
        + apply (P4 n Hn). rewrite !in_app_iff. auto.
      - rewrite F2. apply (vars_marks (x := x) P10). lia.
      - unfold s'. cbn [scoped]. rewrite F in P6. unfold R'. ands; [inc|]. mono P6.
      - intros _ n Hn. unfold s'. cbn [avoids]. rewrite (used_in Hn). reflexivity.
      - exact P8.
      - exact P9.
      - eapply olds_le; eassumption. }
    assert (T5 : closures x5 = closures x4) by (rewrite Ex; reflexivity). assert (F5 : frees x5 = frees x1) by (rewrite Ex, <- Es; reflexivity).
    rewrite T5, F5, (IHm _ _ _ _ _ E R' Q), T2, N2, M2, Fy, avoids_nil. cbn [nonempty negb Nat.ltb Nat.leb]. f_equal. f_equal.
    unfold s'. cbn [avoids]. rewrite (disj_apart DF), (drop_none Hr). cbn [andb]. unfold R'. rewrite !avoids_app, !negb_andb.
    assert (A : negb (avoids (frees x1) s) = nonempty (frees x1)).
    { destruct (frees x1) as [|n l] eqn:Ef; [rewrite avoids_nil; reflexivity|]. cbn [nonempty]. change (n :: l) with ([n] ++ l).
      rewrite avoids_app, (P7 eq_refl n); [reflexivity|]. apply If. left. reflexivity. }
    rewrite A. destruct (nonempty (frees x1)), (avoids (muts x) s), (avoids R s); reflexivity.
  - exact (IHm _ _ _ _ _ H R P).
  - destruct m; [exact (IHr _ _ _ _ _ H R P)|].
    destruct (next_mark x) as [lo x1] eqn:Ek. apply cbind_ok in H. destruct H as ([r0 x2] & Er & H).
    apply cbind_ok in H. destruct H as ([body x3'] & E & H). apply cbind_ok in E. destruct E as ([body' x3] & E & E').
    apply COk_inj, pair_inj in E'. destruct E' as [-> <-]. apply COk_inj, pair_inj in H. destruct H as [<- <-].
    exact (span_hides HM IHm Ek Er E P).
  - destruct m; [exact (IHr _ _ _ _ _ H R P)|].
    destruct (next_mark x) as [lo x1] eqn:Ek. apply cbind_ok in H. destruct H as ([r0 x2] & Er & H).
    apply cbind_ok in H. destruct H as ([body x3'] & E & H). apply cbind_ok in E. destruct E as ([body' x3] & E & E').
    apply COk_inj, pair_inj in E'. destruct E' as [-> <-]. apply COk_inj, pair_inj in H. destruct H as [<- <-].
    exact (span_hides HM IHm Ek Er E P).
Qed.

(** ---------------- the functions ---------------- *)
Theorem parser_names_exact rl f : coherent G -> gen_parser G rl = COk f -> (no_unbound_name f <-> rule_sees G rl = true).
Proof.
  unfold gen_parser, rule_sees, is_unit, no_unbound_name. intros HC H. destruct (ty_of G (rexpr rl)) as [t|] eqn:Et; [|discriminate].
  destruct (ty_is_unit t).
  - apply COk_inj in H. subst f. cbn [fclosures fbody]. split; [reflexivity|]. intros _. split; [|auto]. intros pre k clo post E. destruct pre; discriminate E.
  - destruct (open_scope (card G (rexpr rl)) new_ctx) as [sc x1] eqn:Eo. apply cbind_ok in H. destruct H as ([c x2] & E & H).
    apply cbind_ok in H. destruct H as (x3 & Ec & H). apply COk_inj in H. subst f. cbn [fclosures fbody].
    apply close_scope_ok in Ec. destruct Ec as [Fy Ex]. apply pair_inj in Eo. destruct Eo as [Es E1].
    assert (T3 : closures x3 = closures x2) by (rewrite Ex; reflexivity). rewrite T3.
    assert (M1 : muts x1 = []) by (rewrite <- E1; reflexivity). assert (K1 : marks x1 = []) by (rewrite <- E1; reflexivity).
    assert (C1 : closures x1 = []) by (rewrite <- E1; reflexivity). assert (N1 : ncomb x1 = 0) by (rewrite <- E1; reflexivity).
    assert (F1 : frees x1 = map (NVar (prefix_uid new_ctx)) (seq 0 (card G (rexpr rl)))) by (rewrite <- E1; reflexivity).
    assert (U1 : prefix_uid x1 = S (prefix_uid new_ctx)) by (rewrite <- E1; reflexivity).
    match type of E with compile _ _ _ _ ?z _ = _ => set (s0 := z) in * end.
    assert (Q : place Par [] s0 x1).
    { constructor; rewrite ?M1, ?K1, ?C1, ?app_nil_r; cbn [app].
      - rewrite F1. apply Forall_forall. intros n Hn. apply in_map_iff in Hn. destruct Hn as (k & <- & _). change (prefix_uid new_ctx < prefix_uid x1). rewrite U1. lia.
      - rewrite F1. apply fresh_nodup.
      - intros n [].
      - intros n [].
      - intros n _ [].
      - unfold s0. cbn [scoped]. apply subl_incl, incl_refl.
      - intros _ n Hn. unfold s0. cbn [avoids]. apply used_in, Hn.
      - reflexivity.
      - apply calls_ok_nil.
      - constructor. }
    destruct (@compile_holds _ _ Par HC _ _ _ _ _ [] [] E) as (S2 & C2 & T2); rewrite ?M1, ?K1, ?C1, ?app_nil_r; try solve [inc].
    + pose proof (pl_scoped Q) as S0. rewrite M1, K1, !app_nil_r in S0. exact S0.
    + reflexivity.
    + apply calls_ok_nil.
    + rewrite Fy in S2. cbn [app] in S2. pose proof (@compile_hides _ Par HC _ _ _ _ _ E [] Q) as T. rewrite C1, M1, N1, Fy, !avoids_nil in T.
      cbn [table_scoped forallb andb nonempty negb Nat.ltb Nat.leb] in T. rewrite table_ok_both. rewrite T. tauto.
Qed.
End Exact.
