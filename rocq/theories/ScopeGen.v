(** Generated code has no unbound name: recognizers always, parsers under a condition on where
    semantic actions occur. *)
From Verif Require Import Base Grammar PegSpec Target Compile TargetFacts ScopeFacts CompileShape.
Set Implicit Arguments. Unset Strict Implicit.

(** ---------------- the specification: static checking of a generated function ---------------- *)
(** [calls_in K c]: every continuation closure called in [c] is one of [K], with its number of
    arguments of each kind. *)
Fixpoint calls_in (K : ctable) (c : code) : bool :=
  match c with
  | CState | CFailure | CTail _ | CSuccess _ => true
  | CCall k ms fs ks => existsb (fun q => (fst q =? k) && (length ms =? length (kmuts (snd q)))
       && (length fs =? length (kfrees (snd q))) && (length ks =? length (kmarks (snd q)))) K
  | CLetMark _ c | CLetBool _ _ c | CLetCounter _ c | CLetNone _ c | CLetVec _ c | CLetAct _ _ _ _ _ c
  | CLetSpan _ _ _ c | CSetBool _ _ c | CSetSome _ _ c | CPush _ _ c | CError _ c | CRestore _ c
  | CRestoreFF _ c | CIfFailedRestore _ c => calls_in K c
  | CMatchNext _ s f | CMatchClass _ _ s f | CPrefix _ s f | CCallRec _ s f | CCallPar _ _ s f
  | CAssign s f | CIfTrue _ s f | CTestRestore _ s f | CIfLess _ _ s f | CLoop s _ _ f =>
    calls_in K s && calls_in K f
  end.

(** Closures are defined one after the other; each may call the previous ones only. *)
Definition table_ok (cl : ctable) : Prop := forall pre k clo post, cl = pre ++ (k, clo) :: post ->
  closure_scoped clo = true /\ calls_in pre (kbody clo) = true.
(** Every variable read is bound, every variable assigned is mutable, every closure is defined. *)
Definition no_unbound_name (f : func) : Prop :=
  table_ok (fclosures f) /\ scoped [] [] (fbody f) = true /\ calls_in (fclosures f) (fbody f) = true.

Lemma table_ok_scoped cl : table_ok cl -> table_scoped cl = true.
Proof.
  intros H. apply forallb_forall. intros [k clo] Hin. apply in_split in Hin. destruct Hin as (a & b & E).
  apply (H _ _ _ _ E).
Qed.

Lemma table_ok_nil : table_ok [].
Proof. intros pre k clo post H. destruct pre; discriminate H. Qed.

Lemma table_ok_snoc cl k clo : table_ok cl -> closure_scoped clo = true -> calls_in cl (kbody clo) = true ->
  table_ok (cl ++ [(k, clo)]).
Proof.
  intros H S C pre k' clo' post E. destruct post as [|p post] using rev_ind.
  - apply app_inj_tail in E. destruct E as [<- E]. injection E; intros <- <-. auto.
  - clear IHpost. rewrite app_comm_cons, app_assoc in E. apply app_inj_tail in E. destruct E as [E _].
    exact (H _ _ _ _ E).
Qed.

Lemma existsb_app A (f : A -> bool) a b : existsb f a = true -> existsb f (a ++ b) = true.
Proof. intros H. rewrite existsb_app, H. reflexivity. Qed.
Lemma calls_in_app K L c : calls_in K c = true -> calls_in (K ++ L) c = true.
Proof.
  induction c; simpl; intros H; auto using existsb_app;
    (apply andb_true_iff in H; destruct H; apply andb_true_iff; split; auto).
Qed.
Lemma calls_in_le x y c : ctx_le x y -> calls_in (closures x) c = true -> calls_in (closures y) c = true.
Proof. intros L H. destruct (le_table L) as (n & -> & _). apply calls_in_app, H. Qed.

(** ---------------- monotonicity ---------------- *)
Lemma subl_mono a V W : incl V W -> subl a V = true -> subl a W = true.
Proof. intros I H. apply subl_incl. apply subl_incl in H. eapply incl_tran; eassumption. Qed.
Lemma mem_mono a V W : incl V W -> mem a V = true -> mem a W = true.
Proof. intros I H. apply mem_In. apply mem_In in H. auto. Qed.
Lemma incl_cons2 (x : name) V W : incl V W -> incl (x :: V) (x :: W).
Proof. intros I y [->|H]; [left; reflexivity|right; auto]. Qed.
Lemma incl_app2 (l : list name) V W : incl V W -> incl (l ++ V) (l ++ W).
Proof. intros I y H. apply in_app_or in H. apply in_or_app. destruct H; auto. Qed.

Lemma scoped_mono c : forall V A W B, incl V W -> incl A B -> scoped V A c = true -> scoped W B c = true.
Proof.
  induction c; intros V A W B I J H; simpl in *; auto;
    repeat match goal with
    | H : _ && _ = true |- _ => apply andb_true_iff in H; destruct H
    | |- _ && _ = true => apply andb_true_iff; split
    | x : option name |- _ => destruct x
    end;
    try (eapply subl_mono; eassumption); try (eapply mem_mono; eassumption); try reflexivity;
    try (match goal with IH : forall _ _ _ _, _ -> _ -> _ -> scoped _ _ ?c = true |- scoped _ _ ?c = true =>
         eapply IH; [| |eassumption]; auto using incl_cons2, incl_app2 end).
Qed.

(** ---------------- where actions may occur ---------------- *)
Section Gen.
Variable G : grammar.

(** No choice inside the expression (rule calls are not followed: they are function calls). *)
Fixpoint choice_free (fuel i : nat) : bool :=
  match fuel with
  | 0 => false
  | S n => match expr_of G i with
           | None => false
           | Some (EAlt _) => false
           | Some e => forallb (choice_free n) (children e)
           end
  end.

Section Safe.
Variable safe : bool -> nat -> bool.
Fixpoint safe_seq (top : bool) (l : list nat) : bool :=
  match l with [] => true | i :: r => safe top i && safe_seq (top && (card G i =? 0)) r end.
Fixpoint safe_alt (top : bool) (l : list nat) : bool :=
  match l with [] => true | [i] => safe top i | i :: r => safe false i && safe_alt top r end.
End Safe.

(** [act_safe fuel top i]: every data-building action either has no choice below it or is in a
    position where nothing else of its rule is pending: [top] says that no variable of the rule is
    bound to the left and that the expression is in the last branch of all enclosing choices and
    outside repetitions and options. *)
Fixpoint act_safe (fuel : nat) (top : bool) (i : nat) : bool :=
  match fuel with
  | 0 => false
  | S n =>
    if is_unit G i then true else
    match expr_of G i with
    | None => false
    | Some e =>
      match e with
      | EStr _ | EAny | EClass _ | ENT _ | EExt _ | ENot _ | EAnd _ => true
      | ESeq l => safe_seq (act_safe n) top l
      | EAlt l => safe_alt (act_safe n) top l
      | EStar i | EPlus i | EOpt i => act_safe n false i
      | EAct i _ _ => choice_free n i || (top && act_safe n true i)
      | EAsc i _ | ESpan i | ERange i => act_safe n top i
      end
    end
  end.

Definition vis (x : ctx) : list name := frees x ++ muts x ++ marks x.

(** The obligation on the continuation: choices turn it into a closure, which sees [vis] only. *)
Definition closable (x : ctx) (s : code) : Prop := scoped (vis x) (muts x) s = true.


(** What a run of the compiler must preserve for expression [i]. *)
Definition permit (m : mode) (top : bool) (i : nat) (x : ctx) (s : code) : Prop :=
  (exists n, choice_free n i = true) \/
  (closable x s /\ (m = Par -> (exists n, act_safe n top i = true)
                               /\ (top = true -> length (frees x) = card G i /\ muts x = []))).
Definition keeps (comp : nat -> code -> ctx -> cres (code * ctx)) (m : mode) (i : nat) : Prop :=
  forall top s x c y V A, comp i s x = COk (c, y) -> permit m top i x s ->
    incl (muts x) A -> incl (muts x) V -> incl (marks x) V ->
    scoped (frees x ++ V) A s = true -> calls_in (closures x) s = true -> table_ok (closures x) ->
    scoped (frees y ++ V) A c = true /\ calls_in (closures y) c = true /\ table_ok (closures y).

Ltac inc := let n := fresh in let H := fresh in intros n H;
  repeat (rewrite in_app_iff in * || cbn [In] in * ); intuition (subst; auto).
Ltac ins := repeat (rewrite in_app_iff || cbn [In]); intuition auto.
Ltac mono H := eapply scoped_mono; [| |exact H]; inc.

Lemma choice_free_S n i : choice_free n i = true -> choice_free (S n) i = true.
Proof.
  revert i. induction n as [|n IH]; intros i H; [discriminate|]. cbn [choice_free] in H. 
  remember (S n) as k. cbn [choice_free]. destruct (expr_of G i) as [e|]; [|discriminate].
  destruct e; try exact H; (apply forallb_forall; intros j Hj; apply IH; eapply forallb_forall in H; eassumption).
Qed.
Lemma choice_free_child n i e j : choice_free n i = true -> expr_of G i = Some e -> In j (children e) ->
  exists n, choice_free n j = true.
Proof.
  destruct n as [|n]; [discriminate|]. simpl. intros H E Hj. rewrite E in H. exists n.
  destruct e; try discriminate; (eapply forallb_forall in H; eassumption).
Qed.

Definition permit_seq (m : mode) (top : bool) (l : list nat) (x : ctx) (s : code) : Prop :=
  (forall i, In i l -> exists n, choice_free n i = true) \/
  (closable x s /\ (m = Par -> (exists n, safe_seq (act_safe n) top l = true)
       /\ (top = true -> length (frees x) = list_sum (map (card G) l) /\ muts x = []))).

Lemma seq_keeps comp m : shape_ih G comp m -> (forall i, keeps comp m i) ->
  forall l top s x c y V A, compile_seq comp l s x = COk (c, y) -> permit_seq m top l x s ->
    incl (muts x) A -> incl (muts x) V -> incl (marks x) V ->
    scoped (frees x ++ V) A s = true -> calls_in (closures x) s = true -> table_ok (closures x) ->
    scoped (frees y ++ V) A c = true /\ calls_in (closures y) c = true /\ table_ok (closures y).
Proof.
  intros HS HK. induction l as [|i l IH]; intros top s x c y V A H HP I1 I2 I3 S C T.
  - cbn [compile_seq] in H. apply COk_inj, pair_inj in H. destruct H as [<- <-]. auto.
  - cbn [compile_seq] in H. apply cbind_ok in H. destruct H as ([s1 x1] & E1 & H).
    apply cbind_ok in H. destruct H as ([c2 x2] & E2 & H). apply COk_inj, pair_inj in H. destruct H as [<- <-].
    pose proof (compile_seq_shape HS E1) as Sh.
    assert (HP' : permit_seq m (top && (card G i =? 0)) l x s).
    { destruct HP as [HP|[Cl HP]]; [left; intros j Hj; apply HP; right; exact Hj|right]. split; [exact Cl|].
      intros Em. destruct (HP Em) as [[n Hn] Ht]. split; [exists n; simpl in Hn; apply andb_true_iff in Hn; apply Hn|].
      intros Et. apply andb_true_iff in Et. destruct Et as [-> Ec]. apply Nat.eqb_eq in Ec. simpl in Ht. rewrite Ec in Ht.
      exact (Ht eq_refl). }
    destruct (IH _ _ _ _ _ V A E1 HP' I1 I2 I3 S C T) as (S1 & C1 & T1).
    assert (HP2 : permit m top i x1 s1).
    { destruct HP as [HP|[Cl HP]]; [left; apply HP; left; reflexivity|right]. split.
      - unfold closable, vis in *. rewrite (sh_muts Sh), (sh_marks Sh).
        refine (proj1 (IH _ _ _ _ _ (muts x ++ marks x) (muts x) E1 HP' _ _ _ Cl C T)); inc.
      - intros Em. destruct (HP Em) as [[n Hn] Ht]. simpl in Hn. apply andb_true_iff in Hn. split; [exists n; apply Hn|].
        intros Et. destruct (Ht Et) as [L M]. split; [|rewrite (sh_muts Sh); exact M].
        destruct (sh_frees Sh) as (xs & Fx & Lx). subst m. rewrite Fx, app_length, Lx in L. simpl in L.
        change (map (ncard G Par) l) with (map (card G) l) in L. lia. }
    destruct (HK i _ _ _ _ _ V A E2 HP2) as (S2 & C2 & T2); try assumption;
      try (rewrite (sh_muts Sh); assumption); try (rewrite (sh_marks Sh); assumption).
    auto.
Qed.

Lemma branches_keep comp m : shape_ih G comp m -> (forall i, keeps comp m i) ->
  forall l nv x0 ms bf s x bs y top V A,
    compile_branches comp (save_scope x0) bf s l x = COk (bs, y) ->
    Forall (fun j => ncard G m j = nv) l -> marks x = marks x0 -> muts x0 = ms ++ [bf] ->
    (m = Par -> (exists n, safe_alt (act_safe n) top l = true) /\ (top = true -> length (frees x0) = nv /\ ms = [])) ->
    scoped (frees x0 ++ ms ++ marks x0) ms s = true ->
    incl ms A -> In bf A -> incl ms V -> In bf V -> incl (marks x0) V ->
    calls_in (closures x) s = true -> table_ok (closures x) ->
    Forall (fun b => scoped (frees y ++ V) A b = true /\ calls_in (closures y) b = true) bs /\ table_ok (closures y).
Proof.
  intros HS HK. induction l as [|i l IH]; intros nv x0 ms bf s x bs y top V A H HF Mk Ms HP S I1 I2 I3 I4 I5 C T; [discriminate|].
  pose proof (compile_branches_shape HS HF H) as (_ & _ & _ & xs & Fx & Lxs). simpl in Fx.
  inversion HF as [|? ? Hi HF']; subst.
  assert (SV : scoped (frees x0 ++ V) A s = true) by (mono S).
  destruct l as [|j l].
  - cbn [compile_branches] in H. apply cbind_ok in H. destruct H as (x1 & Ep & H).
    apply pop_mut_ok in Ep. destruct Ep as [_ Ep]. simpl in Ep. rewrite Ms, removelast_last in Ep.
    apply cbind_ok in H. destruct H as ([c y'] & Ec & H). apply COk_inj, pair_inj in H. destruct H as [<- ->].
    assert (F1 : frees x1 = frees x0) by (rewrite Ep; reflexivity).
    assert (M1 : muts x1 = ms) by (rewrite Ep; reflexivity).
    assert (K1 : marks x1 = marks x0) by (rewrite Ep; exact Mk).
    assert (Cl1 : closures x1 = closures x) by (rewrite Ep; reflexivity).
    destruct (HK i top s x1 c y V A Ec) as (S2 & C2 & T2).
    + right. unfold closable, vis. rewrite F1, M1, K1. split; [exact S|]. intros Em. destruct (HP Em) as [[n Hn] Ht].
      split; [exists n; exact Hn|]. intros Et. destruct (Ht Et) as [L ->]. split; [|reflexivity].
      rewrite L. subst m. symmetry. exact Hi.
    + rewrite M1. exact I1.
    + rewrite M1. exact I3.
    + rewrite K1. exact I5.
    + rewrite F1. exact SV.
    + rewrite Cl1. exact C.
    + rewrite Cl1. exact T.
    + split; [constructor; [auto|constructor]|exact T2].
  - remember (j :: l) as jl eqn:Ejl. cbn [compile_branches] in H. rewrite Ejl in H. rewrite <- Ejl in H.
    apply cbind_ok in H. destruct H as ([c x1] & Ec & H). apply cbind_ok in H. destruct H as ([cs y'] & Es & H).
    apply COk_inj, pair_inj in H. destruct H as [<- ->].
    pose proof (HS _ _ _ _ _ Ec) as Sh.
    pose proof (compile_branches_shape HS HF' Es) as (L2 & _).
    destruct (sh_frees Sh) as (xs1 & Fx1 & Lx1). simpl in Fx1.
    assert (frees x1 = frees y) as Fy.
    { assert (length (frees x1) = length (frees y)).
      { apply (f_equal (@length _)) in Fx. apply (f_equal (@length _)) in Fx1. rewrite !app_length in *. lia. }
      assert (K : firstn (length (frees x1)) (frees x1 ++ xs1) = firstn (length (frees y)) (frees y ++ xs)) by (rewrite H; congruence).
      rewrite !firstn_app, !firstn_all, !Nat.sub_diag in K. cbn [firstn] in K. rewrite !app_nil_r in K. exact K. }
    destruct (HK i false (CSetBool bf false s) (restore_scope (save_scope x0) x) c x1 V A Ec) as (S1 & C1 & T1).
    + right. unfold closable, vis. simpl. rewrite Ms, Mk. split.
      * apply andb_true_iff. split; [apply andb_true_iff; split; apply mem_In; ins|]. mono S.
      * intros Em. destruct (HP Em) as [[n Hn] _]. rewrite Ejl in Hn. simpl in Hn. apply andb_true_iff in Hn.
        split; [exists n; apply Hn|discriminate].
    + simpl. rewrite Ms. intros n Hn. apply in_app_or in Hn. destruct Hn as [Hn|[<-|[]]]; auto.
    + simpl. rewrite Ms. intros n Hn. apply in_app_or in Hn. destruct Hn as [Hn|[<-|[]]]; auto.
    + simpl. rewrite Mk. exact I5.
    + simpl. apply andb_true_iff. split; [apply andb_true_iff; split; apply mem_In; [apply in_or_app|]; auto|]. exact SV.
    + exact C.
    + exact T.
    + assert (L1 : ctx_le x x1) by (eapply ctx_le_trans; [apply restore_scope_le|apply (sh_le Sh)]).
      destruct (IH (length xs) x0 ms bf s (with_ncomb x1 (Datatypes.S (ncomb x1))) cs y top V A) as [F2 T2]; try assumption.
      * simpl. rewrite (sh_marks Sh). exact Mk.
      * intros Em. destruct (HP Em) as [[n Hn] Ht]. split; [|exact Ht]. exists n.
        rewrite Ejl in *. simpl in Hn. apply andb_true_iff in Hn. apply Hn.
      * simpl. eapply calls_in_le; [exact L1|exact C].
      * split; [|exact T2]. constructor; [|exact F2]. rewrite <- Fy. split; [exact S1|].
        eapply calls_in_le; [eapply ctx_le_trans; [apply with_ncomb_le|exact L2]|exact C1].
Qed.

Lemma choice_code_scoped K V A bf mk bs : In bf V -> In mk V ->
  Forall (fun b => scoped V A b = true /\ calls_in K b = true) bs ->
  scoped V A (choice_code bf mk bs) = true /\ calls_in K (choice_code bf mk bs) = true.
Proof.
  intros H1 H2 HF. induction HF as [|b bs [S C] HF [IH1 IH2]]; [auto|]. cbn [choice_code scoped calls_in].
  rewrite S, C, IH1, IH2. apply mem_In in H1. apply mem_In in H2. rewrite H1, H2. auto.
Qed.

Ltac ands := repeat match goal with
  | |- _ && _ = true => apply andb_true_iff; split
  | |- mem _ _ = true => apply mem_In
  | |- subl _ _ = true => apply subl_incl
  end.

Lemma keeps_optional s body x c y V A : optional_code s body x = (c, y) ->
  scoped V A s = true -> scoped V A body = true ->
  calls_in (closures x) s = true -> calls_in (closures x) body = true ->
  scoped V A c = true /\ calls_in (closures y) c = true /\ closures y = closures x.
Proof.
  intros H S1 S2 C1 C2. apply pair_inj in H. destruct H as [<- <-]. cbn [scoped calls_in closures].
  split; [|split; [rewrite C1, C2; reflexivity|reflexivity]]. ands; try (left; reflexivity); [mono S2|mono S1].
Qed.
Lemma keeps_repeat k s body x c y V A : repeat_code k s CFailure body x = (c, y) ->
  scoped V A s = true -> scoped V A body = true ->
  calls_in (closures x) s = true -> calls_in (closures x) body = true ->
  scoped V A c = true /\ calls_in (closures y) c = true /\ closures y = closures x.
Proof.
  intros H S1 S2 C1 C2. unfold repeat_code in H. cbn [next_mark] in H. destruct (0 <? k).
  - apply pair_inj in H. destruct H as [<- <-]. cbn [scoped calls_in closures].
    split; [|split; [rewrite C1, C2; reflexivity|reflexivity]]. ands; try reflexivity; try (mono S1); try (mono S2); cbn [In]; auto.
  - apply pair_inj in H. destruct H as [<- <-]. cbn [scoped calls_in closures].
    split; [|split; [rewrite C1, C2; reflexivity|reflexivity]]. ands; try reflexivity; try (mono S1); try (mono S2); cbn [In]; auto.
Qed.

Lemma permit_child m m' top i j e x s x' s' : permit m top i x s -> expr_of G i = Some e -> In j (children e) ->
  (closable x s -> closable x' s') ->
  (m' = Par -> m = Par /\ is_unit G i = false /\ (forall n, act_safe n top i = true -> exists k, act_safe k false j = true)) ->
  permit m' false j x' s'.
Proof.
  intros [[n H]|[Cl H]] E Hj Hc Hm.
  - left. eapply choice_free_child; eassumption.
  - right. split; [auto|]. intros Em. destruct (Hm Em) as (-> & Hu & K). destruct (H eq_refl) as [[n Hn] _].
    split; [exact (K n Hn)|discriminate].
Qed.
Lemma permit_rec i x s : closable x s -> permit Rec false i x s.
Proof. intros H. right. split; [exact H|discriminate]. Qed.

Lemma closable_state x : closable x CState.
Proof. reflexivity. Qed.


(** Body of an option or a repetition of data. *)
Definition store (r : name) (opt : bool) (l : list name) : code :=
  if opt then CSetSome r l CState else CPush r l CState.
Lemma scope_keeps fuel e x r x1 sc x2 opt body x4 x5 :
  (forall j, keeps (compile G fuel Par) Par j) -> coherent G ->
  next_free_var x = COk (r, x1) -> open_scope (card G e) x1 = (sc, x2) ->
  compile G fuel Par e (store r opt (frees (push_mut r x2))) (push_mut r x2) = COk (body, x4) ->
  close_scope sc (with_ncomb x4 (S (ncomb x4))) = COk x5 ->
  (exists n, choice_free n e = true) \/ (exists n, act_safe n false e = true) ->
  table_ok (closures x) ->
  scoped (r :: marks x) [r] body = true /\ calls_in (closures x5) body = true /\ table_ok (closures x5)
  /\ frees x = frees x1 ++ [r] /\ frees x5 = frees x1 /\ ctx_le x x5.
Proof.
  intros IH HC Er Eo Ec Ex Hp T. apply next_free_var_ok in Er. destruct Er as [F E1].
  pose proof (compile_shape (m := Par) HC Ec) as Sh. apply close_scope_ok in Ex. destruct Ex as [Fy Ex].
  pose proof (open_scope_le (card G e) x1) as Lo. rewrite Eo in Lo. cbn [snd] in Lo.
  apply pair_inj in Eo. destruct Eo as [Es E2].
  assert (M3 : muts (push_mut r x2) = [r]) by (rewrite <- E2; reflexivity).
  assert (K3 : marks (push_mut r x2) = marks x) by (rewrite <- E2, E1; reflexivity).
  assert (T3 : closures (push_mut r x2) = closures x) by (rewrite <- E2, E1; reflexivity).
  assert (Sk : forall V A, In r V -> In r A -> scoped (frees (push_mut r x2) ++ V) A (store r opt (frees (push_mut r x2))) = true).
  { intros V A H1 H2. unfold store. destruct opt; cbn [scoped]; ands; try reflexivity; try (apply in_or_app; auto); auto; inc. }
  destruct (IH e false (store r opt (frees (push_mut r x2))) (push_mut r x2) body x4 (r :: marks x) [r] Ec) as (S1 & C1 & T1).
  - destruct Hp as [Hp|Hp]; [left; exact Hp|right]. split.
    + unfold closable, vis. rewrite M3. apply Sk; left; reflexivity.
    + intros _. split; [exact Hp|discriminate].
  - rewrite M3. inc.
  - rewrite M3. inc.
  - rewrite K3. inc.
  - apply Sk; left; reflexivity.
  - unfold store. destruct opt; reflexivity.
  - rewrite T3. exact T.
  - cbn [frees with_ncomb] in Fy. rewrite Fy in S1. cbn [app] in S1.
    assert (T5 : closures x5 = closures x4) by (rewrite Ex; reflexivity). rewrite T5.
    split; [exact S1|]. split; [exact C1|]. split; [exact T1|]. split; [exact F|]. split; [rewrite Ex, <- Es; reflexivity|].
    eapply ctx_le_trans; [|rewrite Ex; apply restore_scope_le]. eapply ctx_le_trans; [|apply with_ncomb_le].
    eapply ctx_le_trans; [|apply (sh_le Sh)]. eapply ctx_le_trans; [|apply with_muts_le].
    eapply ctx_le_trans; [|exact Lo]. rewrite E1. apply with_frees_le.
Qed.

(** Body of a recogniser, followed by nothing. *)
Lemma body_keeps fuel e x body x1 : (forall j, keeps (compile G fuel Rec) Rec j) ->
  compile G fuel Rec e CState x = COk (body, x1) -> table_ok (closures x) ->
  frees x1 = frees x /\ ctx_le x x1 /\ calls_in (closures x1) body = true /\ table_ok (closures x1)
  /\ forall V A, incl (muts x) A -> incl (muts x) V -> incl (marks x) V -> scoped (frees x ++ V) A body = true.
Proof.
  intros IHr E T. pose proof (compile_shape (m := Rec) I E) as Sh. destruct (sh_frees Sh) as (xs & Fx & Lx). destruct xs; [|discriminate].
  rewrite app_nil_r in Fx. assert (K := fun V A I1 I2 I3 => @IHr e false CState x body x1 V A E (permit_rec _ (closable_state x)) I1 I2 I3 eq_refl eq_refl T).
  destruct (K (muts x ++ marks x) (muts x)) as (_ & C1 & T1); try inc. split; [congruence|]. split; [apply (sh_le Sh)|].
  split; [exact C1|]. split; [exact T1|]. intros V A I1 I2 I3. rewrite Fx. apply K; assumption.
Qed.

Lemma repeat_frees k s f b x c y : repeat_code k s f b x = (c, y) -> frees y = frees x.
Proof. intros H. destruct (sh_frees (sh_repeat H)) as (ys & Q1 & Q2). destruct ys; [|discriminate]. rewrite app_nil_r in Q1. auto. Qed.
Lemma optional_frees s b x c y : optional_code s b x = (c, y) -> frees y = frees x.
Proof. intros H. destruct (sh_frees (sh_optional H)) as (ys & Q1 & Q2). destruct ys; [|discriminate]. rewrite app_nil_r in Q1. auto. Qed.

(** [..e] and [...e]. *)
Lemma span_keeps fuel (rg top : bool) i e x lo x1 r x2 s c x3 V A :
  (forall j, keeps (compile G fuel Par) Par j) -> coherent G -> card G i = S (card G e) ->
  next_mark x = (lo, x1) -> next_free_var_skip (card G e) x1 = COk (r, x2) ->
  compile G fuel Par e (CLetSpan r rg lo s) (push_mark lo x2) = COk (c, x3) ->
  (exists n, choice_free n e = true) \/ (closable x s /\ (exists n, act_safe n top e = true)
      /\ (top = true -> length (frees x) = card G i /\ muts x = [])) ->
  incl (muts x) A -> incl (muts x) V -> incl (marks x) V ->
  scoped (frees x ++ V) A s = true -> calls_in (closures x) s = true -> table_ok (closures x) ->
  scoped (frees x3 ++ V) A (CLetMark lo c) = true /\ calls_in (closures x3) (CLetMark lo c) = true /\ table_ok (closures x3).
Proof.
  intros IH HC Hc Em Er Ec HP I1 I2 I3 S C T. apply pair_inj in Em. destruct Em as [Elo E1].
  apply next_free_var_skip_ok in Er. destruct Er as (a & b & Fr & Lb & E2).
  pose proof (compile_shape (m := Par) HC Ec) as Sh.
  assert (F1 : frees x = a ++ [r] ++ b) by (rewrite <- Fr, <- E1; reflexivity).
  assert (F2 : frees (push_mark lo x2) = a ++ b) by (rewrite E2; reflexivity).
  assert (M2 : muts (push_mark lo x2) = muts x) by (rewrite E2, <- E1; reflexivity).
  assert (K2 : marks (push_mark lo x2) = marks x ++ [lo]) by (rewrite E2, <- E1; reflexivity).
  assert (T2 : closures (push_mark lo x2) = closures x) by (rewrite E2, <- E1; reflexivity).
  assert (Sk : forall W B, scoped (frees x ++ W) B s = true -> In lo W -> scoped ((a ++ b) ++ W) B (CLetSpan r rg lo s) = true).
  { intros W B H1 H2. cbn [scoped]. ands; [apply in_or_app; auto|]. rewrite F1 in H1. mono H1. }
  destruct (IH e top _ _ _ _ (lo :: V) (lo :: A) Ec) as (S1 & C1 & T1).
  - destruct HP as [Hp|(Cl & Hp & Ht)]; [left; exact Hp|right]. split.
    + unfold closable, vis in *. rewrite M2, K2, F2. apply Sk; [mono Cl|ins].
    + intros _. split; [exact Hp|]. intros Et. destruct (Ht Et) as [L M]. rewrite M2. split; [|exact M].
      rewrite F2. rewrite F1, !app_length in L. cbn [length] in L. rewrite app_length. lia.
  - rewrite M2. inc.
  - rewrite M2. inc.
  - rewrite K2. inc.
  - rewrite F2. apply Sk; [mono S|left; reflexivity].
  - cbn [calls_in]. rewrite T2. exact C.
  - rewrite T2. exact T.
  - cbn [scoped calls_in]. split; [mono S1|auto].
Qed.

Lemma compile_keeps fuel : forall m i, cohm G m -> keeps (compile G fuel m) m i.
Proof.
  induction fuel as [|fuel IH]; intros m0 i HC top s x c y V A H HP I1 I2 I3 S C T; [discriminate|].
  cbn [compile] in H. apply cbind_ok in H. destruct H as (m & Em & H).
  assert (HM : cohm G m) by (destruct m; [exact I|destruct (eff_par Em) as [-> _]; exact HC]).
  assert (HP' : permit m top i x s).
  { destruct HP as [HP|[Cl HP]]; [left; exact HP|right]. split; [exact Cl|]. intros ->. destruct (eff_par Em) as [-> _]. auto. }
  assert (Hu : m = Par -> is_unit G i = false) by (intros ->; destruct (eff_par Em) as [_ Hu]; exact Hu).
  clear HP. rename HP' into HP.
  destruct (expr_of G i) as [e|] eqn:Ee; [|discriminate].
  assert (HE : m = Par -> coh_expr G i e).
  { intros ->. destruct (eff_par Em) as [-> Hu']. exact (HC i e Ee Hu'). }
  assert (HSh : shape_ih G (compile G fuel m) m) by (intros ? ? ? ? ? K; eapply compile_shape; eassumption).
  assert (IHm : forall j, keeps (compile G fuel m) m j) by (intros j; apply IH, HM).
  assert (IHr : forall j, keeps (compile G fuel Rec) Rec j) by (intros j; apply IH, I).
  clear Em.
  destruct e as [lit| |cls|id|p|l|l|e|e|e|e|e|e bx f|e t|e|e].
  - apply COk_inj, pair_inj in H. destruct H as [<- <-]. cbn. rewrite S, C. auto.
  - destruct m.
    + apply COk_inj, pair_inj in H. destruct H as [<- <-]. cbn. rewrite S, C. auto.
    + apply cbind_ok in H. destruct H as ([v x1] & E & H). apply COk_inj, pair_inj in H. destruct H as [<- <-].
      apply next_free_var_ok in E. destruct E as [F ->]. cbn [frees with_frees closures scoped calls_in] in *. rewrite F in S. rewrite C.
      split; [|auto]. ands; [mono S|reflexivity].
  - apply cbind_ok in H. destruct H as ([v x1] & E & H). apply cbind_ok in H. destruct H as (k & _ & H).
    apply COk_inj, pair_inj in H. destruct H as [<- <-].
    assert (closures x1 = closures x /\ scoped (v :: frees x1 ++ V) (v :: A) s = true) as [Ec Sc].
    { destruct m.
      - apply COk_inj, pair_inj in E. destruct E as [<- <-]. split; [reflexivity|]. mono S.
      - apply next_free_var_ok in E. destruct E as [F E]. rewrite F in S. split; [rewrite E; reflexivity|]. mono S. }
    cbn [frees closures scoped calls_in]. rewrite Ec, C. split; [|auto]. ands; try reflexivity; [mono Sc|cbn [In]; auto].
  - destruct m.
    + apply COk_inj, pair_inj in H. destruct H as [<- <-]. cbn. rewrite S, C. auto.
    + apply cbind_ok in H. destruct H as ([vs x1] & E & H). apply COk_inj, pair_inj in H. destruct H as [<- <-].
      apply pop_vars_ok in E. destruct E as (F & _ & E). rewrite E. cbn [frees closures scoped calls_in with_frees]. rewrite C.
      rewrite F in S. split; [|auto]. ands; [mono S|reflexivity].
  - destruct m.
    + apply COk_inj, pair_inj in H. destruct H as [<- <-]. cbn. rewrite S, C. auto.
    + apply cbind_ok in H. destruct H as ([vs x1] & E & H). apply COk_inj, pair_inj in H. destruct H as [<- <-].
      apply pop_vars_ok in E. destruct E as (F & _ & E). rewrite E. cbn [frees closures scoped calls_in with_frees]. rewrite C.
      rewrite F in S. split; [|auto]. ands; [mono S|reflexivity].
  - (* sequence *)
    eapply (@seq_keeps _ m HSh IHm); try eassumption. instantiate (1 := top).
    destruct HP as [[n HP]|[Cl HP]].
    + left. intros j Hj. eapply choice_free_child; eassumption.
    + right. split; [exact Cl|]. intros Em. destruct (HP Em) as [[n Hn] Ht]. subst m.
      destruct n as [|n]; [discriminate|]. cbn [act_safe] in Hn. rewrite (Hu eq_refl), Ee in Hn.
      split; [exists n; exact Hn|]. intros Et. destruct (Ht Et) as [L M]. split; [|exact M]. rewrite L. exact (HE eq_refl).
  - (* choice *)
    destruct (success_as_closure s x) as [s1 x1] eqn:Es.
    apply cbind_ok in H. destruct H as ([bs y'] & E & H). destruct bs as [|b r]; [discriminate|].
    apply COk_inj, pair_inj in H. destruct H as [<- <-].
    assert (HF : Forall (fun j => ncard G m j = ncard G m i) l).
    { destruct m; [apply Forall_forall; reflexivity|exact (HE eq_refl)]. }
    destruct HP as [[n HP]|[Cl HP]].
    { destruct n as [|n]; [discriminate|]. simpl in HP. rewrite Ee in HP. discriminate. }
    assert (X : frees x1 = frees x /\ muts x1 = muts x /\ marks x1 = marks x
       /\ scoped (frees x ++ muts x ++ marks x) (muts x) s1 = true
       /\ calls_in (closures x1) s1 = true /\ table_ok (closures x1)).
    { unfold success_as_closure in Es. destruct (0 <? ncomb x); apply pair_inj in Es; destruct Es as [<- <-].
      - do 3 (split; [reflexivity|]). cbn [closures]. split; [|split].
        + cbn [scoped]. ands; inc.
        + cbn [calls_in]. apply existsb_exists. eexists. split; [apply in_or_app; right; left; reflexivity|].
          cbn [fst snd kmuts kfrees kmarks]. rewrite !Nat.eqb_refl. reflexivity.
        + apply table_ok_snoc; [exact T| |exact C]. unfold closure_scoped. cbn [kmuts kfrees kmarks kbody].
          unfold closable, vis in Cl. mono Cl.
      - do 3 (split; [reflexivity|]). auto. }
    destruct X as (X1 & X2 & X3 & X4 & X5 & X6).
    set (mk := NMark (Datatypes.S (mark_uid x1))) in *. set (bf := NBranch (Datatypes.S (branch_uid x1))) in *.
    destruct (@branches_keep _ m HSh IHm l (ncard G m i) _ (muts x) bf s1 _ (b :: r) y' top (bf :: mk :: V) (bf :: mk :: A) E HF) as [F2 T2];
      try (cbn [marks muts frees closures push_mut with_muts]; rewrite ?X1, ?X2, ?X3).
    + reflexivity.
    + reflexivity.
    + intros Em. destruct (HP Em) as [[n Hn] Ht]. subst m. destruct n as [|n]; [discriminate|].
      cbn [act_safe] in Hn. rewrite (Hu eq_refl), Ee in Hn. split; [exists n; exact Hn|].
      cbn [ncard]. exact Ht.
    + exact X4.
    + inc.
    + left. reflexivity.
    + inc.
    + left. reflexivity.
    + inc.
    + exact X5.
    + exact X6.
    + inversion F2 as [|? ? [Sb Cb] F3]; subst.
      assert (F3' : Forall (fun b => scoped (bf :: mk :: frees y' ++ V) (bf :: mk :: A) b = true /\ calls_in (closures y') b = true) r).
      { eapply Forall_impl; [|exact F3]. intros b' [Sb' Cb']. split; [mono Sb'|exact Cb']. }
      destruct (@choice_code_scoped (closures y') (bf :: mk :: frees y' ++ V) (bf :: mk :: A) bf mk r) as [Sc Cc]; [cbn; auto|cbn; auto|exact F3'|].
      cbn [scoped calls_in]. split; [ands; [mono Sb|exact Sc]|]. split; [ands; [exact Cb|exact Cc]|exact T2].
  - (* star *)
    destruct m.
    + apply cbind_ok in H. destruct H as ([body x1'] & E & H). apply cbind_ok in E. destruct E as ([body' x1] & E & E').
      apply COk_inj, pair_inj in E'. destruct E' as [-> <-]. apply COk_inj in H.
      destruct (body_keeps IHr E T) as (Fx & Lx & C1 & T1 & S1).
      destruct (@keeps_repeat 0 s body _ c y (frees x ++ V) A H S (S1 V A I1 I2 I3)) as (R1 & R2 & R3); [exact (calls_in_le Lx C)|exact C1|].
      rewrite (repeat_frees H), R3. cbn [frees with_ncomb closures]. rewrite Fx. rewrite R3 in R2. auto.
    + apply cbind_ok in H. destruct H as ([r x1] & Er & H). destruct (open_scope (card G e) x1) as [sc x2] eqn:Eo.
      apply cbind_ok in H. destruct H as ([body x4'] & E & H). apply cbind_ok in E. destruct E as ([body' x4] & E & E').
      apply COk_inj, pair_inj in E'. destruct E' as [-> <-]. apply cbind_ok in H. destruct H as (x5 & Ec & H).
      destruct (repeat_code 0 s CFailure body x5) as [c6 x6] eqn:E6. apply COk_inj, pair_inj in H. destruct H as [<- <-].
      destruct (@scope_keeps fuel e x r x1 sc x2 false body x4 x5 IHm HM Er Eo E Ec) as (S1 & C1 & T1 & F1 & F5 & L5); [|exact T|].
      { destruct HP as [[n HP]|[Cl HP]]; [left; eapply choice_free_child; [exact HP|exact Ee|left; reflexivity]|right].
        destruct (HP eq_refl) as [[[|n] Hn] _]; [discriminate|]. cbn [act_safe] in Hn. rewrite (Hu eq_refl), Ee in Hn. exists n. exact Hn. }
      rewrite F1 in S.
      destruct (@keeps_repeat 0 s body _ c6 x6 (r :: frees x1 ++ V) (r :: A) E6) as (R1 & R2 & R3);
        [mono S|mono S1|eapply calls_in_le; eassumption|exact C1|].
      rewrite (repeat_frees E6), F5. cbn [scoped calls_in]. split; [exact R1|]. rewrite R3. rewrite R3 in R2. auto.
  - destruct m.
    + apply cbind_ok in H. destruct H as ([body x1'] & E & H). apply cbind_ok in E. destruct E as ([body' x1] & E & E').
      apply COk_inj, pair_inj in E'. destruct E' as [-> <-]. apply COk_inj in H.
      destruct (body_keeps IHr E T) as (Fx & Lx & C1 & T1 & S1).
      destruct (@keeps_repeat 1 s body _ c y (frees x ++ V) A H S (S1 V A I1 I2 I3)) as (R1 & R2 & R3); [exact (calls_in_le Lx C)|exact C1|].
      rewrite (repeat_frees H), R3. cbn [frees with_ncomb closures]. rewrite Fx. rewrite R3 in R2. auto.
    + apply cbind_ok in H. destruct H as ([r x1] & Er & H). destruct (open_scope (card G e) x1) as [sc x2] eqn:Eo.
      apply cbind_ok in H. destruct H as ([body x4'] & E & H). apply cbind_ok in E. destruct E as ([body' x4] & E & E').
      apply COk_inj, pair_inj in E'. destruct E' as [-> <-]. apply cbind_ok in H. destruct H as (x5 & Ec & H).
      destruct (repeat_code 1 s CFailure body x5) as [c6 x6] eqn:E6. apply COk_inj, pair_inj in H. destruct H as [<- <-].
      destruct (@scope_keeps fuel e x r x1 sc x2 false body x4 x5 IHm HM Er Eo E Ec) as (S1 & C1 & T1 & F1 & F5 & L5); [|exact T|].
      { destruct HP as [[n HP]|[Cl HP]]; [left; eapply choice_free_child; [exact HP|exact Ee|left; reflexivity]|right].
        destruct (HP eq_refl) as [[[|n] Hn] _]; [discriminate|]. cbn [act_safe] in Hn. rewrite (Hu eq_refl), Ee in Hn. exists n. exact Hn. }
      rewrite F1 in S.
      destruct (@keeps_repeat 1 s body _ c6 x6 (r :: frees x1 ++ V) (r :: A) E6) as (R1 & R2 & R3);
        [mono S|mono S1|eapply calls_in_le; eassumption|exact C1|].
      rewrite (repeat_frees E6), F5. cbn [scoped calls_in]. split; [exact R1|]. rewrite R3. rewrite R3 in R2. auto.
  - destruct m.
    + apply cbind_ok in H. destruct H as ([body x1'] & E & H). apply cbind_ok in E. destruct E as ([body' x1] & E & E').
      apply COk_inj, pair_inj in E'. destruct E' as [-> <-]. apply COk_inj in H.
      destruct (body_keeps IHr E T) as (Fx & Lx & C1 & T1 & S1).
      destruct (@keeps_optional s body _ c y (frees x ++ V) A H S (S1 V A I1 I2 I3)) as (R1 & R2 & R3); [exact (calls_in_le Lx C)|exact C1|].
      rewrite (optional_frees H), R3. cbn [frees with_ncomb closures]. rewrite Fx. rewrite R3 in R2. auto.
    + apply cbind_ok in H. destruct H as ([r x1] & Er & H). destruct (open_scope (card G e) x1) as [sc x2] eqn:Eo.
      apply cbind_ok in H. destruct H as ([body x4'] & E & H). apply cbind_ok in E. destruct E as ([body' x4] & E & E').
      apply COk_inj, pair_inj in E'. destruct E' as [-> <-]. apply cbind_ok in H. destruct H as (x5 & Ec & H).
      destruct (optional_code s body x5) as [c6 x6] eqn:E6. apply COk_inj, pair_inj in H. destruct H as [<- <-].
      destruct (@scope_keeps fuel e x r x1 sc x2 true body x4 x5 IHm HM Er Eo E Ec) as (S1 & C1 & T1 & F1 & F5 & L5); [|exact T|].
      { destruct HP as [[n HP]|[Cl HP]]; [left; eapply choice_free_child; [exact HP|exact Ee|left; reflexivity]|right].
        destruct (HP eq_refl) as [[[|n] Hn] _]; [discriminate|]. cbn [act_safe] in Hn. rewrite (Hu eq_refl), Ee in Hn. exists n. exact Hn. }
      rewrite F1 in S.
      destruct (@keeps_optional s body _ c6 x6 (r :: frees x1 ++ V) (r :: A) E6) as (R1 & R2 & R3);
        [mono S|mono S1|eapply calls_in_le; eassumption|exact C1|].
      rewrite (optional_frees E6), F5. cbn [scoped calls_in]. split; [exact R1|]. rewrite R3. rewrite R3 in R2. auto.
  - destruct m; [|discriminate]. apply cbind_ok in H. destruct H as ([body x2'] & E & H).
    apply cbind_ok in E. destruct E as ([body' x2] & E & E').
    apply COk_inj, pair_inj in E'. destruct E' as [-> <-]. apply COk_inj, pair_inj in H. destruct H as [<- <-].
    destruct (body_keeps IHr E T) as (Fx & Lx & C1 & T1 & S1). cbn [frees muts marks with_ncomb closures] in *.
    cbn [scoped calls_in]. rewrite C1, (calls_in_le Lx C), Fx. split; [|auto].
    specialize (S1 V A I1 I2 I3). ands; try reflexivity; [mono S1|left; reflexivity|mono S].
  - destruct m; [|discriminate]. apply cbind_ok in H. destruct H as ([body x2'] & E & H).
    apply cbind_ok in E. destruct E as ([body' x2] & E & E').
    apply COk_inj, pair_inj in E'. destruct E' as [-> <-]. apply COk_inj, pair_inj in H. destruct H as [<- <-].
    destruct (body_keeps IHr E T) as (Fx & Lx & C1 & T1 & S1). cbn [frees muts marks with_ncomb closures] in *.
    cbn [scoped calls_in]. rewrite C1, (calls_in_le Lx C), Fx. split; [|auto].
    specialize (S1 V A I1 I2 I3). ands; try reflexivity; [mono S1|left; reflexivity|mono S].
  - (* action *)
    destruct m.
    + eapply (IHr e false); try eassumption. destruct HP as [[n HP]|[Cl HP]]; [|apply permit_rec, Cl].
      left. eapply choice_free_child; [exact HP|exact Ee|left; reflexivity].
    + apply cbind_ok in H. destruct H as ([r x1] & Er & H). destruct (open_scope (card G e) x1) as [sc x2] eqn:Eo.
      apply cbind_ok in H. destruct H as ([body x4'] & E & H). apply cbind_ok in E. destruct E as ([body' x4] & E & E').
      apply COk_inj, pair_inj in E'. destruct E' as [-> <-]. apply cbind_ok in H. destruct H as (x5 & Ec & H).
      apply COk_inj, pair_inj in H. destruct H as [<- <-].
      apply next_free_var_ok in Er. destruct Er as [F E1]. apply close_scope_ok in Ec. destruct Ec as [Fy Ex].
      cbn [frees with_ncomb] in Fy.
      apply pair_inj in Eo. destruct Eo as [Es E2].
      assert (M2 : muts x2 = []) by (rewrite <- E2; reflexivity).
      assert (K2 : marks x2 = marks x) by (rewrite <- E2, E1; reflexivity).
      assert (T2 : closures x2 = closures x) by (rewrite <- E2, E1; reflexivity).
      assert (L2 : length (frees x2) = card G e) by (rewrite <- E2; cbn [frees with_frees]; rewrite map_length, seq_length; reflexivity).
      assert (Sk : forall W B, scoped (r :: frees x1 ++ W) (r :: B) s = true ->
         scoped (frees x2 ++ frees x1 ++ W) B (CLetAct r f (unit_variant f (is_unit G e)) bx (frees x2) s) = true).
      { intros W B H1. cbn [scoped]. ands; [inc|]. mono H1. }
      rewrite F in S.
      assert (exists top', permit Par top' e x2 (CLetAct r f (unit_variant f (is_unit G e)) bx (frees x2) s)) as [top' HP'].
      { destruct HP as [[n HP]|[Cl HP]].
        - exists false. left. eapply choice_free_child; [exact HP|exact Ee|left; reflexivity].
        - destruct (HP eq_refl) as [[[|n] Hn] Ht]; [discriminate|]. cbn [act_safe] in Hn. rewrite (Hu eq_refl), Ee in Hn.
          apply orb_true_iff in Hn. destruct Hn as [Hn|Hn]; [exists false; left; exists n; exact Hn|].
          apply andb_true_iff in Hn. destruct Hn as [-> Hn]. destruct (Ht eq_refl) as [L M].
          assert (F1 : frees x1 = []).
          { rewrite (HE eq_refl), F, app_length in L. cbn [length] in L. destruct (frees x1); [reflexivity|cbn [length] in L; lia]. }
          exists true. right. split.
          + unfold closable, vis in *. rewrite M2, K2. rewrite M, F, F1 in Cl. cbn [app] in *.
            specialize (Sk (marks x) []). rewrite F1 in Sk. cbn [app] in Sk. apply Sk. mono Cl.
          + intros _. split; [exists n; exact Hn|]. intros _. auto. }
      destruct (IHm e top' _ _ _ _ (frees x1 ++ V) A E HP') as (S1 & C1 & T1).
      * rewrite M2. inc.
      * rewrite M2. inc.
      * rewrite K2. inc.
      * apply Sk. mono S.
      * cbn [calls_in]. rewrite T2. exact C.
      * rewrite T2. exact T.
      * rewrite Fy in S1. cbn [app] in S1. rewrite Ex, <- Es. cbn [frees closures restore_scope with_ncomb with_muts with_frees sc_frees save_scope]. auto.
  - (* ascription *)
    eapply (IHm e top); try eassumption. destruct HP as [[n HP]|[Cl HP]].
    + left. eapply choice_free_child; [exact HP|exact Ee|left; reflexivity].
    + right. split; [exact Cl|]. intros ->. destruct (HP eq_refl) as [[[|n] Hn] Ht]; [discriminate|].
      cbn [act_safe] in Hn. rewrite (Hu eq_refl), Ee in Hn. split; [exists n; exact Hn|]. intros Et. destruct (Ht Et) as [L M].
      split; [|exact M]. rewrite L. symmetry. exact (HE eq_refl).
  - destruct m.
    + eapply (IHr e false); try eassumption. destruct HP as [[n HP]|[Cl HP]]; [|apply permit_rec, Cl].
      left. eapply choice_free_child; [exact HP|exact Ee|left; reflexivity].
    + destruct (next_mark x) as [lo x1] eqn:Em. apply cbind_ok in H. destruct H as ([r0 x2] & Er & H).
      apply cbind_ok in H. destruct H as ([body x3'] & E & H). apply cbind_ok in E. destruct E as ([body' x3] & E & E').
      apply COk_inj, pair_inj in E'. destruct E' as [-> <-]. apply COk_inj, pair_inj in H. destruct H as [<- <-].
      refine (@span_keeps fuel false top i e x lo x1 r0 x2 s body x3 V A IHm HM (HE eq_refl) Em Er E _ I1 I2 I3 S C T).
      destruct HP as [[n HP]|[Cl HP]]; [left; eapply choice_free_child; [exact HP|exact Ee|left; reflexivity]|right].
      destruct (HP eq_refl) as [[[|n] Hn] Ht]; [discriminate|]. cbn [act_safe] in Hn. rewrite (Hu eq_refl), Ee in Hn.
      split; [exact Cl|]. split; [exists n; exact Hn|exact Ht].
  - destruct m.
    + eapply (IHr e false); try eassumption. destruct HP as [[n HP]|[Cl HP]]; [|apply permit_rec, Cl].
      left. eapply choice_free_child; [exact HP|exact Ee|left; reflexivity].
    + destruct (next_mark x) as [lo x1] eqn:Em. apply cbind_ok in H. destruct H as ([r0 x2] & Er & H).
      apply cbind_ok in H. destruct H as ([body x3'] & E & H). apply cbind_ok in E. destruct E as ([body' x3] & E & E').
      apply COk_inj, pair_inj in E'. destruct E' as [-> <-]. apply COk_inj, pair_inj in H. destruct H as [<- <-].
      refine (@span_keeps fuel true top i e x lo x1 r0 x2 s body x3 V A IHm HM (HE eq_refl) Em Er E _ I1 I2 I3 S C T).
      destruct HP as [[n HP]|[Cl HP]]; [left; eapply choice_free_child; [exact HP|exact Ee|left; reflexivity]|right].
      destruct (HP eq_refl) as [[[|n] Hn] Ht]; [discriminate|]. cbn [act_safe] in Hn. rewrite (Hu eq_refl), Ee in Hn.
      split; [exact Cl|]. split; [exists n; exact Hn|exact Ht].
Qed.

(** ---------------- the functions ---------------- *)
Theorem recognizer_scoped rl f : gen_recognizer G rl = COk f -> no_unbound_name f.
Proof.
  unfold gen_recognizer. intros H. apply cbind_ok in H. destruct H as ([c x] & E & H). apply COk_inj in H. subst f.
  destruct (@compile_keeps _ Rec (rexpr rl) I false _ _ _ _ [] [] E) as (S1 & C1 & T1); try reflexivity; try exact table_ok_nil; try (intros n []).
  - apply permit_rec. reflexivity.
  - pose proof (compile_shape (m := Rec) I E) as Sh. destruct (sh_frees Sh) as (xs & F & _). symmetry in F. apply app_eq_nil in F.
    destruct F as [F _]. rewrite F in S1. split; [exact T1|]. split; [exact S1|exact C1].
Qed.

(** Every data-building action of the rule is in a safe place. *)
Definition rule_act_safe (rl : rule) : bool := act_safe (gen_fuel G) true (rexpr rl).

Theorem parser_scoped rl f : coherent G -> rule_act_safe rl = true -> gen_parser G rl = COk f -> no_unbound_name f.
Proof.
  unfold gen_parser. intros HC HS H. destruct (ty_of G (rexpr rl)) as [t|] eqn:Et; [|discriminate].
  destruct (ty_is_unit t).
  - apply COk_inj in H. subst f. split; [intros pre k clo post Q; destruct pre; discriminate Q|]. split; reflexivity.
  - destruct (open_scope (card G (rexpr rl)) new_ctx) as [sc x1] eqn:Eo. apply cbind_ok in H. destruct H as ([c x2] & E & H).
    apply cbind_ok in H. destruct H as (x3 & Ec & H). apply COk_inj in H. subst f.
    apply close_scope_ok in Ec. destruct Ec as [Fy Ex]. apply pair_inj in Eo. destruct Eo as [Es E1].
    destruct (@compile_keeps _ Par (rexpr rl) HC true _ _ _ _ [] [] E) as (S1 & C1 & T1); try (rewrite <- E1; exact table_ok_nil); try (rewrite <- E1; intros n []).
    + right. split.
      * unfold closable, vis. apply subl_incl. inc.
      * intros _. split; [exists (gen_fuel G); exact HS|]. intros _. rewrite <- E1. cbn. rewrite map_length, seq_length. auto.
    + apply subl_incl. inc.
    + reflexivity.
    + rewrite Fy in S1. rewrite Ex. split; [exact T1|]. split; [exact S1|exact C1].
Qed.
End Gen.
