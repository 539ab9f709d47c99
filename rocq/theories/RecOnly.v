(** Generated recognizers call recognizers only. *)
From Verif Require Import Base Utf8 Stream ParseState Grammar PegSpec Target Compile CompileShape.
Set Implicit Arguments. Unset Strict Implicit.

(** No call of a parser in the code. *)
Fixpoint rec_only (c : code) : bool :=
  match c with
  | CState | CSuccess _ | CFailure | CTail _ | CCall _ _ _ _ => true
  | CLetMark _ c | CLetBool _ _ c | CLetCounter _ c | CLetNone _ c | CLetVec _ c | CLetAct _ _ _ _ _ c | CLetSpan _ _ _ c
  | CSetBool _ _ c | CSetSome _ _ c | CPush _ _ c | CError _ c | CRestore _ c | CRestoreFF _ c | CIfFailedRestore _ c => rec_only c
  | CMatchNext _ s f | CMatchClass _ _ s f | CPrefix _ s f | CAssign s f | CIfTrue _ s f | CTestRestore _ s f | CCallRec _ s f | CIfLess _ _ s f => rec_only s && rec_only f
  | CCallPar _ _ _ _ => false
  | CLoop b _ _ c => rec_only b && rec_only c
  end.
Definition table_rec (cl : ctable) : Prop := forall k clo, In (k, clo) cl -> rec_only (kbody clo) = true.
Definition func_rec (f : func) : Prop := rec_only (fbody f) = true /\ table_rec (fclosures f).

(** ---------------- evaluation ---------------- *)
Section Eval.
Variable prog : mode -> string -> option func.
Variables xf xf' : mode -> list string -> pst -> outcome (pst * alog).
Hypothesis PR : forall id f, prog Rec id = Some f -> func_rec f.
Hypothesis XR : forall p st, xf Rec p st = xf' Rec p st.

Lemma eval_rec n : forall cl c st e, table_rec cl -> rec_only c = true -> eval prog xf n cl c st e = eval prog xf' n cl c st e.
Proof.
  induction n as [|n IH]; intros cl c st e T R; [reflexivity|].
  assert (B : forall (A C : Type) (r : outcome A) (k1 k2 : A -> outcome C), (forall a, k1 a = k2 a) -> obind r k1 = obind r k2)
    by (intros A C [a| | |] k1 k2 H; cbn; auto).
  assert (CALL : forall p s0,
    match p with
    | Local id => obind (of_opt (prog Rec id)) (fun f => obind (eval prog xf n (fclosures f) (fbody f) s0 []) (fun '(st', _, l) => Done (st', l)))
    | Foreign p => xf Rec p s0
    end =
    match p with
    | Local id => obind (of_opt (prog Rec id)) (fun f => obind (eval prog xf' n (fclosures f) (fbody f) s0 []) (fun '(st', _, l) => Done (st', l)))
    | Foreign p => xf' Rec p s0
    end).
  { intros [id|p] s0; [|apply XR]. destruct (prog Rec id) as [f|] eqn:F; [|reflexivity]. cbn [of_opt obind]. destruct (PR F) as [R1 R2]. rewrite (IH _ _ s0 [] R2 R1). reflexivity. }
  assert (AF : forall r (k1 k2 : pst -> env -> out), (forall a b, k1 a b = k2 a b) -> after r k1 = after r k2).
  { intros [[[a b] l]| | |] k1 k2 H; cbn; try reflexivity. rewrite H. reflexivity. }
  assert (CT : forall id s0 (C : Type) (k : pst * alog -> outcome C),
    obind (obind (of_opt (prog Rec id)) (fun f => obind (eval prog xf n (fclosures f) (fbody f) s0 []) (fun '(st', _, l) => Done (st', l)))) k =
    obind (obind (of_opt (prog Rec id)) (fun f => obind (eval prog xf' n (fclosures f) (fbody f) s0 []) (fun '(st', _, l) => Done (st', l)))) k).
  { intros id s0 C k. exact (f_equal (fun x => obind x k) (CALL (Local id) s0)). }
  pose proof R as RL. destruct c; cbn [rec_only] in R; try discriminate R; try (apply andb_prop in R; destruct R as [R1 R2]); cbn [eval]; cbv zeta;
    repeat first
      [ reflexivity
      | rewrite (IH cl _ _ _ T) by assumption
      | rewrite CALL
      | apply CT
      | match goal with |- context [eval prog xf n cl ?c ?st ?e] => rewrite (IH cl c st e T) by (first [assumption | exact RL]) end
      | apply B; intros
      | apply AF; intros
      | match goal with |- context [match find ?f cl with _ => _ end] =>
          let q := fresh "q" in let F := fresh "F" in destruct (find f cl) as [q|] eqn:F; [|reflexivity]; apply find_some in F; destruct F as [F _];
          destruct q as [k0 clo]; assert (rec_only (kbody clo) = true) by exact (T _ _ F) end
      | match goal with
        | |- obind ?r1 ?k = obind ?r2 ?k => f_equal
        | |- context [match ?x with _ => _ end] => destruct x
        end ].
Qed.
Lemma run_fn_rec n id st : run_fn prog xf n Rec id st = run_fn prog xf' n Rec id st.
Proof. unfold run_fn. destruct (prog Rec id) as [f|] eqn:F; [|reflexivity]. destruct (PR F) as [R1 R2]. rewrite (eval_rec n st [] R2 R1). reflexivity. Qed.
End Eval.

(** ---------------- the generated recognizers ---------------- *)
Section Gen.
Variable G : grammar.
Definition ctx_rec (x : ctx) : Prop := table_rec (closures x).
Definition good (r : cres (code * ctx)) : Prop := forall c x, r = COk (c, x) -> rec_only c = true /\ ctx_rec x.

Lemma seq_rec comp : (forall i s x, rec_only s = true -> ctx_rec x -> good (comp i s x)) -> forall l s x, rec_only s = true -> ctx_rec x -> good (compile_seq comp l s x).
Proof.
  intros C. induction l as [|i l IH]; intros s x S0 X c y H; cbn [compile_seq] in H.
  - apply COk_inj, pair_inj in H. destruct H as [<- <-]. auto.
  - apply cbind_ok in H. destruct H as ([s1 x1] & E & H). apply cbind_ok in H. destruct H as ([c2 x2] & E2 & H). apply COk_inj, pair_inj in H. destruct H as [<- <-].
    destruct (IH _ _ S0 X _ _ E) as [A1 A2]. destruct (C _ _ _ A1 A2 _ _ E2) as [B1 B2]. split; [exact B1|exact B2].
Qed.
Lemma branches_rec comp sc bf s : (forall i s x, rec_only s = true -> ctx_rec x -> good (comp i s x)) -> rec_only s = true -> forall l x, ctx_rec x ->
  forall bs y, compile_branches comp sc bf s l x = COk (bs, y) -> forallb rec_only bs = true /\ ctx_rec y.
Proof.
  intros C S0. induction l as [|i l IH]; intros x X bs y H; [discriminate|]. cbn [compile_branches] in H. destruct l as [|i2 l].
  - apply cbind_ok in H. destruct H as (x1 & E & H). apply cbind_ok in H. destruct H as ([c2 x2] & E2 & H). apply COk_inj, pair_inj in H. destruct H as [<- <-].
    assert (X1 : ctx_rec x1). { unfold pop_mut in E. cbn [restore_scope] in E. destruct (muts (restore_scope sc x)); [discriminate|]. apply COk_inj in E. subst x1. exact X. }
    destruct (C _ _ _ S0 X1 _ _ E2) as [B1 B2]. cbn [forallb]. rewrite B1. auto.
  - apply cbind_ok in H. destruct H as ([c1 x1] & E & H). apply cbind_ok in H. destruct H as ([cs x2] & E2 & H). apply COk_inj, pair_inj in H. destruct H as [<- <-].
    destruct (C i (CSetBool bf false s) (restore_scope sc x) S0 X _ _ E) as [A1 A2]. destruct (IH (with_ncomb x1 (S (ncomb x1))) A2 _ _ E2) as [B1 B2]. cbn [forallb]. rewrite A1, B1. auto.
Qed.
Lemma choice_rec bf mk bs : forallb rec_only bs = true -> rec_only (choice_code bf mk bs) = true.
Proof. induction bs as [|b bs IH]; [reflexivity|]. cbn [forallb choice_code rec_only]. intros H. apply andb_prop in H. destruct H as [H1 H2]. rewrite H1, (IH H2). reflexivity. Qed.
Lemma closure_rec s x : rec_only s = true -> ctx_rec x -> rec_only (fst (success_as_closure s x)) = true /\ ctx_rec (snd (success_as_closure s x)).
Proof.
  intros S0 X. unfold success_as_closure. destruct (0 <? ncomb x); cbn [fst snd rec_only]; [|auto]. split; [reflexivity|]. intros k clo I0. cbn [closures] in I0.
  apply in_app_iff in I0. destruct I0 as [I0|[I0|[]]]; [exact (X _ _ I0)|]. injection I0 as _ <-. exact S0.
Qed.
Lemma compile_rec fuel : forall i s x, rec_only s = true -> ctx_rec x -> good (compile G fuel Rec i s x).
Proof.
  induction fuel as [|n IH]; intros i s x S0 X c y H; [discriminate|]. cbn [compile eff_mode cbind] in H.
  assert (RE : forall e x0 c y, ctx_rec x0 -> cbind (compile G n Rec e CState x0) (fun '(c, x1) => COk (c, with_ncomb x1 (S (ncomb x1)))) = COk (c, y) -> rec_only c = true /\ ctx_rec y).
  { intros e x0 c0 y0 X0 E. apply cbind_ok in E. destruct E as ([c1 x1] & E & Q). apply COk_inj, pair_inj in Q. destruct Q as [<- <-]. exact (IH _ _ _ (eq_refl : rec_only CState = true) X0 _ _ E). }
  destruct (expr_of G i) as [[lit| |cls|id|p|l|l|j|j|j|j|j|j b f|j t|j|j]|]; try discriminate H.
  - apply COk_inj, pair_inj in H. destruct H as [<- <-]. cbn. rewrite S0. auto.
  - apply COk_inj, pair_inj in H. destruct H as [<- <-]. cbn. rewrite S0. auto.
  - apply cbind_ok in H. destruct H as (k & E & H). apply COk_inj, pair_inj in H. destruct H as [<- <-]. cbn. rewrite S0. auto.
  - apply COk_inj, pair_inj in H. destruct H as [<- <-]. cbn. rewrite S0. auto.
  - apply COk_inj, pair_inj in H. destruct H as [<- <-]. cbn. rewrite S0. auto.
  - exact (seq_rec IH S0 X H).
  - pose proof (closure_rec S0 X) as CR. destruct (success_as_closure s x) as [s1 x1]. cbn [fst snd] in CR. destruct CR as [C1 C2].
    cbn [next_mark next_branch] in H. apply cbind_ok in H. destruct H as ([bs x5] & E & H). destruct bs as [|b r]; [discriminate|]. apply COk_inj, pair_inj in H. destruct H as [<- <-].
    match type of E with compile_branches _ _ _ _ _ ?x0 = _ => assert (X0 : ctx_rec x0) by exact C2 end.
    destruct (branches_rec IH C1 X0 E) as [A1 A2]. split; [|exact A2]. cbn [forallb] in A1. apply andb_prop in A1. destruct A1 as [A0 A1]. cbn [rec_only]. rewrite A0, (choice_rec _ _ A1). reflexivity.
  - apply cbind_ok in H. destruct H as ([body x1] & E & H). destruct (RE _ _ _ _ X E) as [A1 A2]. apply COk_inj in H. cbn in H. apply pair_inj in H. destruct H as [<- <-]. cbn [rec_only]. rewrite A1, S0. auto.
  - apply cbind_ok in H. destruct H as ([body x1] & E & H). destruct (RE _ _ _ _ X E) as [A1 A2]. apply COk_inj in H. cbn in H. apply pair_inj in H. destruct H as [<- <-]. cbn [rec_only]. rewrite A1, S0. auto.
  - apply cbind_ok in H. destruct H as ([body x1] & E & H). destruct (RE _ _ _ _ X E) as [A1 A2]. apply COk_inj in H. cbn in H. apply pair_inj in H. destruct H as [<- <-]. cbn [rec_only]. rewrite A1, S0. auto.
  - cbn [next_mark] in H. apply cbind_ok in H. destruct H as ([body x1] & E & H). match type of E with cbind (compile _ _ _ _ _ ?x0) _ = _ => assert (X0 : ctx_rec x0) by exact X end.
    destruct (RE _ _ _ _ X0 E) as [A1 A2]. apply COk_inj, pair_inj in H. destruct H as [<- <-]. cbn [rec_only]. rewrite A1, S0. auto.
  - cbn [next_mark] in H. apply cbind_ok in H. destruct H as ([body x1] & E & H). match type of E with cbind (compile _ _ _ _ _ ?x0) _ = _ => assert (X0 : ctx_rec x0) by exact X end.
    destruct (RE _ _ _ _ X0 E) as [A1 A2]. apply COk_inj, pair_inj in H. destruct H as [<- <-]. cbn [rec_only]. rewrite A1, S0. auto.
  - exact (IH _ _ _ S0 X _ _ H).
  - exact (IH _ _ _ S0 X _ _ H).
  - exact (IH _ _ _ S0 X _ _ H).
  - exact (IH _ _ _ S0 X _ _ H).
Qed.
Theorem recognizers_rec id f : gen_prog G Rec id = Some f -> func_rec f.
Proof.
  unfold gen_prog. destruct (find_rule G id) as [rl|]; [|discriminate]. cbn [gen_rule]. destruct (gen_recognizer G rl) as [f0|] eqn:E; [|discriminate]. intros Q. injection Q as <-.
  unfold gen_recognizer in E. apply cbind_ok in E. destruct E as ([c x] & E & Q). apply COk_inj in Q. subst f0. refine (compile_rec (s := CSuccess []) (x := new_ctx) eq_refl _ E). intros k clo [].
Qed.
End Gen.
