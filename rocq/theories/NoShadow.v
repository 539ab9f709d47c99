(** No generated variable is bound again while it is in scope, and closure parameters are distinct. *)
From Coq Require Import Permutation.
From Verif Require Import Base Utf8 Stream ParseState RuntimeFacts Grammar PegSpec Target Compile TargetFacts ScopeFacts CompileShape EvalRules CompileCorrect ScopeGen.
Set Implicit Arguments. Unset Strict Implicit.

(** ---------------- specification ---------------- *)
(** [fresh_in B x]: [x] is not one of [B]; the identifier "x" of recognizer classes is never read and
    may be bound again. *)
Definition fresh_in (B : list name) (x : name) : Prop := x = NX \/ ~ In x B.
(** [no_rebind B c]: with the variables [B] in scope, no binder of [c] binds a variable in scope. *)
Fixpoint no_rebind (B : list name) (c : code) : Prop :=
  match c with
  | CState | CFailure | CTail _ | CSuccess _ | CCall _ _ _ _ => True
  | CLetMark x c | CLetBool x _ c | CLetCounter x c | CLetNone x c | CLetVec x c | CLetAct x _ _ _ _ c
  | CLetSpan x _ _ c => fresh_in B x /\ no_rebind (x :: B) c
  | CSetBool _ _ c | CSetSome _ _ c | CPush _ _ c | CError _ c | CRestore _ c | CRestoreFF _ c
  | CIfFailedRestore _ c => no_rebind B c
  | CMatchNext (Some x) s f | CMatchClass x _ s f => (fresh_in B x /\ no_rebind (x :: B) s) /\ no_rebind B f
  | CMatchNext None s f | CPrefix _ s f | CCallRec _ s f | CAssign s f | CIfTrue _ s f | CTestRestore _ s f
  | CIfLess _ _ s f | CLoop s _ _ f => no_rebind B s /\ no_rebind B f
  | CCallPar _ vars s f => (NoDup vars /\ Forall (fresh_in B) vars /\ no_rebind (vars ++ B) s) /\ no_rebind B f
  end.
Definition closure_no_rebind (k : closure) : Prop :=
  NoDup (kmuts k ++ kfrees k ++ kmarks k) /\ no_rebind (kmuts k ++ kfrees k ++ kmarks k) (kbody k).
Definition func_no_rebind (f : func) : Prop :=
  NoDup (map fst (fclosures f)) /\ Forall (fun k => closure_no_rebind (snd k)) (fclosures f) /\ no_rebind [] (fbody f).

(** ---------------- the variables bound by a piece of code ---------------- *)
Definition real (x : name) : list name := match x with NX => [] | _ => [x] end.
Fixpoint bnd (c : code) : list name :=
  match c with
  | CState | CFailure | CTail _ | CSuccess _ | CCall _ _ _ _ => []
  | CLetMark x c | CLetBool x _ c | CLetCounter x c | CLetNone x c | CLetVec x c | CLetAct x _ _ _ _ c
  | CLetSpan x _ _ c => real x ++ bnd c
  | CSetBool _ _ c | CSetSome _ _ c | CPush _ _ c | CError _ c | CRestore _ c | CRestoreFF _ c
  | CIfFailedRestore _ c => bnd c
  | CMatchNext (Some x) s f | CMatchClass x _ s f => real x ++ bnd s ++ bnd f
  | CMatchNext None s f | CPrefix _ s f | CCallRec _ s f | CAssign s f | CIfTrue _ s f | CTestRestore _ s f
  | CIfLess _ _ s f | CLoop s _ _ f => bnd s ++ bnd f
  | CCallPar _ vars s f => flat_map real vars ++ bnd s ++ bnd f
  end.

Lemma real_in x n : In n (real x) <-> n = x /\ x <> NX.
Proof. destruct x; cbn; split; try tauto; try (intros [<-|[]]; split; [reflexivity|discriminate]); intros [-> _]; auto. Qed.
Lemma real_flat l n : In n (flat_map real l) <-> In n l /\ n <> NX.
Proof.
  rewrite in_flat_map. split.
  - intros (x & H & K). apply real_in in K. destruct K as [-> K]. auto.
  - intros [H K]. exists n. split; [exact H|]. apply real_in. auto.
Qed.

Definition apart (c : code) (B : list name) : Prop := forall n, In n (bnd c) -> ~ In n B.

Ltac ins := repeat rewrite in_app_iff in *; cbn [In] in *; repeat rewrite real_in in *; repeat rewrite real_flat in *.

Lemma let_apart B x c : (forall B, no_rebind B c -> apart c B) -> fresh_in B x /\ no_rebind (x :: B) c ->
  forall n, In n (real x ++ bnd c) -> ~ In n B.
Proof.
  intros IH [F H] n Hn. ins. destruct Hn as [[-> Hx]|Hn]; [destruct F; [contradiction|assumption]|].
  intros K. apply (IH _ H n Hn). right. exact K.
Qed.
Ltac split_in Hz := apply in_app_or in Hz; destruct Hz as [Hz|Hz].
Lemma nr_apart c : forall B, no_rebind B c -> apart c B.
Proof.
  induction c; intros B H z Hz; cbn [no_rebind bnd] in *; try contradiction; try (exact (IHc _ H z Hz)); try (exact (let_apart IHc H Hz)).
  all: try (destruct H as [H1 H2]; split_in Hz; match goal with
     | I1 : forall B, no_rebind B ?a -> apart ?a B, H1 : no_rebind _ ?a, Hz : In _ (bnd ?a) |- _ => exact (I1 _ H1 z Hz) end).
  - destruct x as [x|].
    + destruct H as [H1 H2]. rewrite app_assoc in Hz. split_in Hz; [exact (let_apart IHc1 H1 Hz)|exact (IHc2 _ H2 z Hz)].
    + destruct H as [H1 H2]; split_in Hz; [exact (IHc1 _ H1 z Hz)|exact (IHc2 _ H2 z Hz)].
  - destruct H as [H1 H2]. rewrite app_assoc in Hz. split_in Hz; [exact (let_apart IHc1 H1 Hz)|exact (IHc2 _ H2 z Hz)].
  - destruct H as [(D & F & H1) H2]. ins. destruct Hz as [[Hz Hx]|[Hz|Hz]].
    + rewrite Forall_forall in F. destruct (F z Hz); [contradiction|assumption].
    + intros K. apply (IHc1 _ H1 z Hz). apply in_or_app. right. exact K.
    + exact (IHc2 _ H2 z Hz).
Qed.

Lemma fresh_of B x l : (forall n, In n (real x ++ l) -> ~ In n B) -> fresh_in B x.
Proof.
  intros A. destruct (name_eqb x NX) eqn:E; [left; destruct x; try discriminate; reflexivity|right].
  apply A. apply in_or_app. left. apply real_in. split; [reflexivity|]. intros ->. discriminate.
Qed.
Lemma let_any B B' x c : (forall B B', no_rebind B c -> apart c B' -> no_rebind B' c) -> fresh_in B x /\ no_rebind (x :: B) c ->
     (forall n, In n (real x ++ bnd c) -> ~ In n B') -> fresh_in B' x /\ no_rebind (x :: B') c.
Proof.
  intros IH [F H] A. split; [exact (fresh_of A)|].
  apply (IH _ _ H). intros n Hn [<-|K]; [|exact (A n (in_or_app _ _ _ (or_intror Hn)) K)].
  apply (nr_apart H Hn). left. reflexivity.
Qed.
Lemma nr_any c : forall B B', no_rebind B c -> apart c B' -> no_rebind B' c.
Proof.
  induction c; intros B B' H A; cbn [no_rebind] in *; unfold apart in A; cbn [bnd] in A; try exact I; try (exact (IHc _ _ H A));
    try (exact (let_any IHc H A)).
  all: try (destruct H as [H1 H2]; split; match goal with
    | I1 : forall B B', no_rebind B ?a -> apart ?a B' -> no_rebind B' ?a, H1 : no_rebind _ ?a |- no_rebind _ ?a =>
        apply (I1 _ _ H1); intros z Hz; apply A, in_or_app; auto end).
  - destruct x as [x|]; destruct H as [H1 H2]; (split; [|apply (IHc2 _ _ H2); intros z Hz; apply A; ins; auto]).
    + apply (let_any IHc1 H1). intros z Hz. apply A. rewrite app_assoc. apply in_or_app. auto.
    + apply (IHc1 _ _ H1). intros z Hz. apply A. ins. auto.
  - destruct H as [H1 H2]; (split; [|apply (IHc2 _ _ H2); intros z Hz; apply A; ins; auto]).
    apply (let_any IHc1 H1). intros z Hz. apply A. rewrite app_assoc. apply in_or_app. auto.
  - destruct H as [(D & F & H1) H2]. split; [|apply (IHc2 _ _ H2); intros z Hz; apply A; ins; auto]. split; [exact D|]. split.
    + apply Forall_forall. intros x Hx. destruct (name_eqb x NX) eqn:E; [left; destruct x; try discriminate; reflexivity|right].
      apply A. ins. left. split; [exact Hx|]. intros ->. discriminate.
    + apply (IHc1 _ _ H1). intros z Hz K. apply in_app_or in K. destruct K as [K|K].
      * apply (nr_apart H1 Hz). apply in_or_app. auto.
      * apply (A z); [ins; auto|exact K].
Qed.

Lemma nr_let x c : no_rebind [] c -> ~ In x (bnd c) -> fresh_in [] x /\ no_rebind [x] c.
Proof.
  intros H K. split; [right; intros []|]. apply (nr_any H). intros n Hn [<-|[]]. contradiction.
Qed.

(** ---------------- the invariant ---------------- *)
Record inv (x : ctx) : Prop := {
  in_nodup : NoDup (vis x);
  in_old : Forall (old x) (vis x)
}.
Definition tab (x : ctx) : Prop := Forall (fun k => closure_no_rebind (snd k)) (closures x)
  /\ NoDup (map fst (closures x)) /\ Forall (fun k => fst k <= closure_uid x) (closures x).
Definition okc (x : ctx) (s : code) : Prop := no_rebind [] s /\ forall n, In n (bnd s) -> old x n /\ ~ In n (vis x).
(** Where the binders of the code come from. *)
Definition made (x y : ctx) (s c : code) : Prop :=
  forall n, In n (bnd c) -> In n (bnd s) \/ (In n (frees x) /\ ~ In n (frees y)) \/ (old y n /\ ~ old x n).
Definition kept (comp : nat -> code -> ctx -> cres (code * ctx)) : Prop := forall i s x c y,
  comp i s x = COk (c, y) -> inv x -> okc x s -> tab x -> no_rebind [] c /\ made x y s c /\ tab y.

Lemma in_vis x n : In n (vis x) <-> In n (frees x) \/ In n (muts x) \/ In n (marks x).
Proof. unfold vis. rewrite !in_app_iff. tauto. Qed.
Lemma inv_old x n : inv x -> In n (vis x) -> old x n.
Proof. intros H K. pose proof (in_old H) as F. rewrite Forall_forall in F. exact (F n K). Qed.
Lemma inv_real x n : inv x -> In n (vis x) -> n <> NX.
Proof. intros H K ->. apply (inv_old H) in K. exact K. Qed.

Lemma vis_shape k x y n : shape k x y -> In n (vis y) -> In n (vis x).
Proof.
  intros S H. apply in_vis in H. apply in_vis. destruct (sh_frees S) as (xs & E & _). rewrite E, in_app_iff.
  rewrite (sh_muts S), (sh_marks S) in H. tauto.
Qed.
Lemma inv_shape k x y : shape k x y -> inv x -> inv y.
Proof.
  intros S H. pose proof (in_nodup H) as D. destruct (sh_frees S) as (xs & E & _). split.
  - unfold vis in *. rewrite E, <- app_assoc in D. rewrite (sh_muts S), (sh_marks S).
    clear -D. revert D. generalize (muts x ++ marks x) as l. generalize (frees y) as f. induction f as [|a f IH]; intros l D; cbn in *.
    + exact (NoDup_app_r D).
    + inversion D; subst. constructor; [|auto]. intros K. apply H1. apply in_app_or in K. apply in_or_app. destruct K; [auto|right; apply in_or_app; auto].
  - apply Forall_forall. intros n Hn. eapply old_le; [exact (sh_le S)|]. apply (inv_old H). exact (vis_shape S Hn).
Qed.
Lemma okc_shape k x y s c : shape k x y -> inv x -> okc x s -> no_rebind [] c -> made x y s c -> okc y c.
Proof.
  intros S H [_ K] N M. split; [exact N|]. intros n Hn. destruct (M n Hn) as [A|[[A B]|[A B]]].
  - destruct (K n A) as [O V]. split; [exact (old_le (sh_le S) O)|]. intros Q. exact (V (vis_shape S Q)).
  - split.
    + apply (old_le (sh_le S)). apply (inv_old H). apply in_vis. auto.
    + intros Q. apply in_vis in Q. destruct Q as [Q|Q]; [contradiction|]. rewrite (sh_muts S), (sh_marks S) in Q.
      pose proof (in_nodup H) as D. unfold vis in D. apply (NoDup_app_disj D A). apply in_or_app. exact Q.
  - split; [exact A|]. intros Q. apply B. apply (inv_old H). exact (vis_shape S Q).
Qed.
Lemma made_trans k l x y z s c d : shape k x y -> shape l y z -> made x y s c -> made y z c d -> made x z s d.
Proof.
  intros S1 S2 M1 M2 n Hn. destruct (sh_frees S1) as (xs & E1 & _). destruct (sh_frees S2) as (ys & E2 & _).
  destruct (M2 n Hn) as [A|[[A B]|[A B]]].
  - destruct (M1 n A) as [C|[[C D]|[C D]]]; [auto| |].
    + right. left. split; [exact C|]. intros Q. apply D. rewrite E2. apply in_or_app. auto.
    + right. right. split; [exact (old_le (sh_le S2) C)|exact D].
  - right. left. split; [rewrite E1; apply in_or_app; auto|exact B].
  - right. right. split; [exact A|]. intros Q. apply B. exact (old_le (sh_le S1) Q).
Qed.
Lemma made_refl x s : made x x s s.
Proof. intros n H. auto. Qed.

(** ---------------- variables taken from the context ---------------- *)
Lemma taken x y s vs : inv x -> okc x s -> frees x = frees y ++ vs -> NoDup vs /\ forall v, In v vs ->
  In v (frees x) /\ ~ In v (frees y) /\ ~ In v (bnd s) /\ v <> NX.
Proof.
  intros H [_ K] E. pose proof (in_nodup H) as D. unfold vis in D. apply NoDup_app_l in D. rewrite E in D.
  split; [exact (NoDup_app_r D)|]. intros v Hv. assert (In v (frees x)) as I1 by (rewrite E; apply in_or_app; auto).
  split; [exact I1|]. split; [intros Q; exact (NoDup_app_disj D Q Hv)|]. split; [|apply (inv_real H), in_vis; auto].
  intros Q. destruct (K v Q) as [_ Z]. apply Z, in_vis. auto.
Qed.

Lemma okc_old x s n : okc x s -> ~ old x n -> ~ In n (bnd s).
Proof. intros [_ K] H Q. destruct (K n Q). contradiction. Qed.
Lemma okc_nil x : okc x CState.
Proof. split; [exact I|intros n []]. Qed.

Lemma tab_same x y : closures y = closures x -> closure_uid x <= closure_uid y -> tab x -> tab y.
Proof.
  intros E L (A & B & C). unfold tab. rewrite E. split; [exact A|]. split; [exact B|]. eapply Forall_impl; [|exact C]. cbn. intros; lia.
Qed.

Lemma NoDup_app_intro A (a b : list A) : NoDup a -> NoDup b -> (forall x, In x a -> ~ In x b) -> NoDup (a ++ b).
Proof.
  induction 1 as [|x a Hx Ha IH]; intros Hb D; [exact Hb|]. cbn. constructor.
  - intros Q. apply in_app_or in Q. destruct Q as [Q|Q]; [contradiction|]. apply (D x); [left; reflexivity|exact Q].
  - apply IH; [exact Hb|]. intros y Hy. apply D. right. exact Hy.
Qed.
Lemma closure_kept s x s1 y : success_as_closure s x = (s1, y) -> inv x -> okc x s -> tab x ->
  no_rebind [] s1 /\ made x y s s1 /\ tab y.
Proof.
  unfold success_as_closure. intros E H K T. destruct (0 <? ncomb x); apply pair_inj in E; destruct E as [<- <-].
  - split; [exact I|]. split; [intros n []|]. destruct T as (A & B & C). unfold tab. cbn [closures closure_uid]. split; [|split].
    + apply Forall_app. split; [exact A|]. constructor; [|constructor]. unfold closure_no_rebind. cbn [snd kmuts kfrees kmarks kbody]. split.
      * pose proof (in_nodup H) as D. unfold vis in D. clear -D. rewrite app_assoc in *.
        eapply (Permutation_NoDup); [|exact D]. apply Permutation_app_tail, Permutation_app_comm.
      * destruct K as [K1 K2]. apply (nr_any K1). intros n Hn Q. apply (K2 n Hn). apply in_vis. ins. tauto.
    + rewrite map_app. cbn [map fst]. rewrite Forall_forall in C. apply NoDup_app_intro.
      * exact B.
      * repeat constructor. intros [].
      * intros k Hk [<-|[]]. apply in_map_iff in Hk. destruct Hk as (q & E & Hq). specialize (C q Hq). cbv beta in C. lia.
    + apply Forall_app. split; [eapply Forall_impl; [|exact C]; cbn; intros; lia|]. constructor; [cbn; lia|constructor].
  - split; [apply K|]. split; [apply made_refl|exact T].
Qed.

Section Gen.
Variable G : grammar.

Lemma seq_kept comp m : shape_ih G comp m -> kept comp -> forall l s x c y,
  compile_seq comp l s x = COk (c, y) -> inv x -> okc x s -> tab x -> no_rebind [] c /\ made x y s c /\ tab y.
Proof.
  intros HS HK. induction l as [|i l IHl]; intros s x c y H Hx Hs T; cbn [compile_seq] in H.
  - apply COk_inj, pair_inj in H. destruct H as [<- <-]. split; [apply Hs|]. split; [apply made_refl|exact T].
  - apply cbind_ok in H. destruct H as ([s1 x1] & E1 & H). apply cbind_ok in H. destruct H as ([c1 x2] & E2 & H).
    apply COk_inj, pair_inj in H. destruct H as [<- <-].
    destruct (IHl _ _ _ _ E1 Hx Hs T) as (N1 & M1 & T1). pose proof (compile_seq_shape HS E1) as S1. pose proof (HS _ _ _ _ _ E2) as S2.
    destruct (HK _ _ _ _ _ E2 (inv_shape S1 Hx) (okc_shape S1 Hx Hs N1 M1) T1) as (N2 & M2 & T2).
    split; [exact N2|]. split; [|exact T2]. exact (made_trans S1 S2 M1 M2).
Qed.

(** Restoring the scope before a branch. *)
Lemma branches_kept comp m x0 bf ms s : shape_ih G comp m -> kept comp -> muts x0 = ms ++ [bf] -> inv x0 -> okc x0 s -> forall l x bs y n,
  Forall (fun j => ncard G m j = n) l -> ctx_le x0 x -> marks x = marks x0 -> tab x ->
  compile_branches comp (save_scope x0) bf s l x = COk (bs, y) ->
  Forall (fun c => no_rebind [] c /\ made x0 y s c) bs /\ tab y.
Proof.
  intros HS HK Hm Hi Hs. induction l as [|i l IHl]; intros x bs y n HF L Ma T H; [discriminate|].
  inversion HF as [|? ? Hn HF']; subst.
  assert (V : forall k, In k (vis (restore_scope (save_scope x0) x)) <-> In k (vis x0)).
  { intros k. rewrite !in_vis. cbn [restore_scope save_scope with_ncomb with_muts with_frees frees muts marks sc_frees sc_muts]. rewrite Ma. tauto. }
  assert (Hr : inv (restore_scope (save_scope x0) x)).
  { split.
    - unfold vis. cbn [restore_scope save_scope with_ncomb with_muts with_frees frees muts marks sc_frees sc_muts]. rewrite Ma. exact (in_nodup Hi).
    - apply Forall_forall. intros k Hk. apply V in Hk. exact (old_le L (inv_old Hi Hk)). }
  destruct l as [|j l].
  - cbn [compile_branches] in H. apply cbind_ok in H. destruct H as (x1 & E1 & H). apply cbind_ok in H. destruct H as ([c x2] & E2 & H).
    apply COk_inj, pair_inj in H. destruct H as [<- <-]. apply pop_mut_ok in E1. destruct E1 as [_ E1].
    assert (Em : muts x1 = ms).
    { rewrite E1. cbn [with_muts muts restore_scope save_scope with_ncomb with_frees sc_muts]. rewrite Hm, removelast_last. reflexivity. }
    assert (V1 : forall k, In k (vis x1) -> In k (vis x0)).
    { intros k. rewrite !in_vis, Em, Hm, in_app_iff. rewrite E1. cbn [restore_scope save_scope with_ncomb with_muts with_frees frees muts marks sc_frees sc_muts]. rewrite Ma. tauto. }
    assert (O1 : forall k, old x k -> old x1 k) by (intros k; rewrite E1; destruct k; exact (fun q => q)).
    assert (Hi1 : inv x1).
    { split.
      - unfold vis. rewrite Em. pose proof (in_nodup Hi) as D. unfold vis in D. rewrite Hm, <- app_assoc in D.
        rewrite E1. cbn [restore_scope save_scope with_ncomb with_muts with_frees frees muts marks sc_frees sc_muts]. rewrite Ma.
        clear -D. rewrite app_assoc in *. cbn [app] in D. eapply NoDup_remove_1. exact D.
      - apply Forall_forall. intros k Hk. apply O1. exact (old_le L (inv_old Hi (V1 _ Hk))). }
    assert (Hs1 : okc x1 s).
    { split; [apply Hs|]. intros k Hk. destruct (proj2 Hs k Hk) as [A B]. split; [apply O1; exact (old_le L A)|]. intros Q. apply B, V1, Q. }
    assert (T1 : tab x1) by (rewrite E1; exact T).
    destruct (HK _ _ _ _ _ E2 Hi1 Hs1 T1) as (N & M & T2). split; [|exact T2]. constructor; [|constructor]. split; [exact N|].
    intros k Hk. destruct (M k Hk) as [A|[[A B]|[A B]]]; [auto| |].
    + right. left. split; [|exact B]. rewrite E1 in A. exact A.
    + right. right. split; [exact A|]. intros Q. apply B, O1. exact (old_le L Q).
  - remember (j :: l) as jl eqn:Ejl. cbn [compile_branches] in H. rewrite Ejl in H. rewrite <- Ejl in H.
    apply cbind_ok in H. destruct H as ([c x1] & E1 & H). apply cbind_ok in H. destruct H as ([cs x2] & E2 & H).
    apply COk_inj, pair_inj in H. destruct H as [<- <-].
    assert (Hs1 : okc (restore_scope (save_scope x0) x) (CSetBool bf false s)).
    { split; [apply Hs|]. intros k Hk. destruct (proj2 Hs k Hk) as [A B]. split; [exact (old_le L A)|]. intros Q. apply B, V, Q. }
    destruct (HK _ _ _ _ _ E1 Hr Hs1 T) as (N & M & T1). pose proof (HS _ _ _ _ _ E1) as S1.
    assert (L1 : ctx_le x0 (with_ncomb x1 (S (ncomb x1)))).
    { eapply ctx_le_trans; [exact L|]. eapply ctx_le_trans; [|apply with_ncomb_le]. eapply ctx_le_trans; [apply restore_scope_le|exact (sh_le S1)]. }
    assert (Ma1 : marks (with_ncomb x1 (S (ncomb x1))) = marks x0) by (cbn [with_ncomb marks]; rewrite (sh_marks S1); exact Ma).
    destruct (IHl _ _ _ _ HF' L1 Ma1 T1 E2) as (F & T2). split; [|exact T2]. constructor; [|exact F]. split; [exact N|].
    destruct (compile_branches_shape HS HF' E2) as (L2 & _ & _ & xs & Fx & Lx). destruct (sh_frees S1) as (ys & Fy & Ly).
    cbn [restore_scope save_scope with_ncomb with_muts with_frees frees sc_frees] in Fy, Fx.
    assert (frees x1 = frees x2) as Ef by (refine (proj1 (app_len_inj (a := frees x1) (b := ys) (c := frees x2) (d := xs) _ _)); congruence).
    intros k Hk. destruct (M k Hk) as [A|[[A B]|[A B]]].
    + left. exact A.
    + right. left. split; [exact A|]. rewrite <- Ef. exact B.
    + right. right. split; [exact (old_le L2 A)|]. intros Q. apply B. exact (old_le L Q).
Qed.

Lemma choice_nr bf mk bs : Forall (no_rebind []) bs -> no_rebind [] (choice_code bf mk bs).
Proof. induction 1 as [|b bs Hb H IH]; cbn; auto. Qed.
Lemma choice_bnd bf mk bs n : In n (bnd (choice_code bf mk bs)) -> exists b, In b bs /\ In n (bnd b).
Proof.
  induction bs as [|b bs IH]; cbn; [tauto|]. rewrite !in_app_iff. cbn [In]. intros [[H|H]|[]]; [eauto|]. destruct (IH H) as (b' & A & B). eauto.
Qed.

Lemma mark_new x m y : next_mark x = (m, y) -> ~ old x m /\ old y m /\ m <> NX /\ frees y = frees x /\ closures y = closures x /\ closure_uid y = closure_uid x.
Proof. intros H. apply pair_inj in H. destruct H as [<- <-]. cbn. repeat split; try lia. discriminate. Qed.
Lemma counter_new x m y : next_counter x = (m, y) -> ~ old x m /\ old y m /\ m <> NX /\ frees y = frees x /\ closures y = closures x /\ closure_uid y = closure_uid x.
Proof. intros H. apply pair_inj in H. destruct H as [<- <-]. cbn. repeat split; try lia. discriminate. Qed.
Lemma branch_new x m y : next_branch x = (m, y) -> ~ old x m /\ old y m /\ m <> NX /\ frees y = frees x /\ closures y = closures x /\ closure_uid y = closure_uid x.
Proof. intros H. apply pair_inj in H. destruct H as [<- <-]. cbn. repeat split; try lia. discriminate. Qed.

Lemma optional_kept s body x c y : optional_code s body x = (c, y) -> no_rebind [] s -> no_rebind [] body ->
  (forall n, In n (bnd s) \/ In n (bnd body) -> old x n) ->
  no_rebind [] c /\ (forall n, In n (bnd c) -> In n (bnd s) \/ In n (bnd body) \/ (old y n /\ ~ old x n)) /\ (tab x -> tab y).
Proof.
  unfold optional_code. destruct (next_mark x) as [m x1] eqn:E. intros H Ns Nb O. apply pair_inj in H. destruct H as [<- <-].
  destruct (mark_new E) as (A & B & _ & _ & C & D). split; [|split].
  - apply nr_let; [split; assumption|]. cbn [bnd]. rewrite in_app_iff. intros Q. apply A, O. tauto.
  - intros n Hn. cbn [bnd] in Hn. ins. destruct Hn as [[-> _]|[Hn|Hn]]; auto.
  - apply tab_same; [exact C|lia].
Qed.
Lemma repeat_kept k s body x c y : repeat_code k s CFailure body x = (c, y) -> no_rebind [] s -> no_rebind [] body ->
  (forall n, In n (bnd s) \/ In n (bnd body) -> old x n) ->
  no_rebind [] c /\ (forall n, In n (bnd c) -> In n (bnd s) \/ In n (bnd body) \/ (old y n /\ ~ old x n)) /\ (tab x -> tab y).
Proof.
  unfold repeat_code. destruct (next_mark x) as [m x1] eqn:E. intros H Ns Nb O. destruct (mark_new E) as (A & B & _ & _ & C & D).
  destruct (0 <? k).
  - destruct (next_counter x1) as [q x2] eqn:E2. apply pair_inj in H. destruct H as [<- <-].
    destruct (counter_new E2) as (A2 & B2 & _ & _ & C2 & D2).
    pose proof (sh_le (sh_mark E)) as L1. pose proof (sh_le (sh_counter E2)) as L2.
    split; [|split].
    + apply nr_let.
      * apply nr_let; [cbn; auto|]. cbn [bnd app]. rewrite in_app_iff. intros Q. apply A2, (old_le L1), O. tauto.
      * cbn [bnd app]. ins. intros [[-> _]|[Q|Q]]; [apply A2, B| |]; apply A, O; tauto.
    + intros n Hn. cbn [bnd app] in Hn. ins. destruct Hn as [[-> _]|[[-> _]|[Hn|Hn]]]; auto.
      * right. right. split; [exact (old_le L2 B)|exact A].
      * right. right. split; [exact B2|]. intros Q. apply A2. exact (old_le L1 Q).
    + apply tab_same; [congruence|lia].
  - apply pair_inj in H. destruct H as [<- <-]. split; [|split].
    + apply nr_let; [cbn; auto|]. cbn [bnd]. rewrite in_app_iff. intros Q. apply A, O. tauto.
    + intros n Hn. cbn [bnd] in Hn. ins. destruct Hn as [[-> _]|[Hn|Hn]]; auto.
    + apply tab_same; [exact C|lia].
Qed.

Lemma fresh_vars_new k u : NoDup (map (NVar u) (seq 0 k)) /\ forall n, In n (map (NVar u) (seq 0 k)) -> exists i, n = NVar u i.
Proof.
  split.
  - apply FinFun.Injective_map_NoDup; [intros a b H; congruence|apply seq_NoDup].
  - intros n H. apply in_map_iff in H. destruct H as (i & <- & _). eauto.
Qed.

(** A scope opened for the body of an option, a repetition or an action. *)
Lemma scope_inv k x sc x2 ms : open_scope k x = (sc, x2) -> inv x -> incl ms (frees x ++ muts x) -> NoDup (ms ++ marks x) ->
  (forall n, In n ms -> old x n) -> inv (with_muts x2 ms).
Proof.
  intros E H I1 D O. apply pair_inj in E. destruct E as [_ <-]. destruct (fresh_vars_new k (prefix_uid x)) as [Nd Nw].
  assert (Ov : forall n, In n (ms ++ marks x) -> old x n).
  { intros n Hn. apply in_app_or in Hn. destruct Hn as [Hn|Hn]; [auto|]. apply (inv_old H), in_vis. auto. }
  split; unfold vis; cbn [with_muts with_frees with_ncomb frees muts marks prefix_uid].
  - apply NoDup_app_intro; [exact Nd|exact D|]. intros n Hn Q. apply Ov in Q. apply Nw in Hn. destruct Hn as [i ->]. cbn in Q. lia.
  - apply Forall_forall. intros n Hn. apply in_app_or in Hn. destruct Hn as [Hn|Hn].
    + apply Nw in Hn. destruct Hn as [i ->]. cbn. lia.
    + apply Ov in Hn. destruct n; cbn in *; lia.
Qed.
Lemma scope_new k x sc x2 n : open_scope k x = (sc, x2) -> In n (frees x2) -> ~ old x n.
Proof.
  intros E H Q. apply pair_inj in E. destruct E as [_ <-]. cbn in H. apply (proj2 (fresh_vars_new k (prefix_uid x))) in H. destruct H as [i ->].
  cbn in Q. lia.
Qed.

Definition store_in (opt : bool) (r : name) (l : list name) : code := if opt then CSetSome r l CState else CPush r l CState.

Lemma scope_kept comp e k x r x1 sc x2 opt body x4 x5 : kept comp -> shape_ih G comp Par ->
  next_free_var x = COk (r, x1) -> open_scope k x1 = (sc, x2) ->
  comp e (store_in opt r (frees (push_mut r x2))) (push_mut r x2) = COk (body, x4) ->
  close_scope sc (with_ncomb x4 (S (ncomb x4))) = COk x5 -> inv x -> tab x ->
  no_rebind [] body /\ (forall n, In n (bnd body) -> old x5 n /\ ~ old x n) /\ tab x5.
Proof.
  intros HK HS Er Eo Eb Ec Hx T. apply next_free_var_ok in Er. destruct Er as [F E1].
  assert (Hr : In r (vis x)) by (apply in_vis; left; rewrite F; apply in_or_app; right; left; reflexivity).
  assert (S1 : shape 1 x x1) by (rewrite E1; constructor; auto; [apply with_frees_le|exists [r]; auto]).
  pose proof (inv_shape S1 Hx) as Hx1.
  assert (Em : muts x2 = []) by (apply pair_inj in Eo; destruct Eo as [_ <-]; reflexivity).
  assert (E3 : push_mut r x2 = with_muts x2 [r]) by (unfold push_mut; rewrite Em; reflexivity).
  assert (H3 : inv (push_mut r x2)).
  { pose proof (in_nodup Hx) as D. unfold vis in D. rewrite F in D.
    assert (K1 : NoDup ([r] ++ marks x)).
    { cbn [app]. rewrite <- app_assoc in D. apply NoDup_app_r in D. cbn in D. inversion D; subst. constructor.
      - intros Q. apply H1, in_or_app. auto.
      - eapply NoDup_app_r, H2. }
    assert (K2 : Forall (old (with_muts x2 [r])) (vis (with_muts x2 [r])) /\ NoDup (vis (with_muts x2 [r]))).
    { destruct (fresh_vars_new k (prefix_uid x1)) as [Nd Nw].
      assert (Ov : forall n, In n ([r] ++ marks x) -> old x n).
      { intros n Hn. cbn in Hn. destruct Hn as [<-|Hn]; [exact (inv_old Hx Hr)|]. apply (inv_old Hx), in_vis. auto. }
      apply pair_inj in Eo. destruct Eo as [_ <-]. rewrite E1 in *. unfold vis. cbn [with_muts with_frees with_ncomb frees muts marks prefix_uid] in *. split.
      - apply Forall_forall. intros n Hn. apply in_app_or in Hn. destruct Hn as [Hn|Hn].
        + apply Nw in Hn. destruct Hn as [i ->]. cbn. lia.
        + apply Ov in Hn. destruct n; cbn in *; lia.
      - apply NoDup_app_intro; [exact Nd|exact K1|]. intros n Hn Q. apply Ov in Q. apply Nw in Hn. destruct Hn as [i ->]. cbn in Q. lia. }
    rewrite E3. split; apply K2. }
  assert (Ok : okc (push_mut r x2) (store_in opt r (frees (push_mut r x2)))) by (destruct opt; split; cbn; auto; intros n []).
  assert (T3 : tab (push_mut r x2)).
  { apply pair_inj in Eo. destruct Eo as [_ <-]. rewrite E1. exact T. }
  assert (Lx : ctx_le x (push_mut r x2)).
  { pose proof (open_scope_le k x1) as Lo. rewrite Eo in Lo. cbn [snd] in Lo. eapply ctx_le_trans; [exact (sh_le S1)|].
    eapply ctx_le_trans; [exact Lo|apply with_muts_le]. }
  destruct (HK _ _ _ _ _ Eb H3 Ok T3) as (N & M & T4). pose proof (HS _ _ _ _ _ Eb) as S4.
  apply close_scope_ok in Ec. destruct Ec as [_ Ec]. split; [exact N|]. split; [|rewrite Ec; exact T4].
  intros n Hn. assert (O5 : forall q, old x4 q -> old x5 q) by (intros q; rewrite Ec; destruct q; exact (fun z => z)).
  destruct (M n Hn) as [Q|[[Q _]|[Q1 Q2]]].
  - destruct opt; destruct Q.
  - assert (~ old x1 n) as Z by (eapply scope_new; [exact Eo|exact Q]). split.
    + apply O5, (old_le (sh_le S4)), (inv_old H3), in_vis. auto.
    + intros W. apply Z. rewrite E1. destruct n; exact W.
  - split; [apply O5, Q1|]. intros W. apply Q2. exact (old_le Lx W).
Qed.

(** The binders of [let mut r = ..; c] after a scope. *)
Lemma collected x x5 y r x1 s body c : inv x -> okc x s -> next_free_var x = COk (r, x1) -> ctx_le x x5 -> ctx_le x5 y -> frees y = frees x1 ->
  (forall n, In n (bnd body) -> old x5 n /\ ~ old x n) -> no_rebind [] c ->
  (forall n, In n (bnd c) -> In n (bnd s) \/ In n (bnd body) \/ (old y n /\ ~ old x5 n)) ->
  (fresh_in [] r /\ no_rebind [r] c) /\ forall n, In n (real r ++ bnd c) -> In n (bnd s) \/ (In n (frees x) /\ ~ In n (frees y)) \/ (old y n /\ ~ old x n).
Proof.
  intros Hx Hs Er L5 Ly Fy Hb Nc Hc. apply next_free_var_ok in Er. destruct Er as [F _].
  destruct (taken Hx Hs F) as [_ Tk]. destruct (Tk r (or_introl eq_refl)) as (R1 & R2 & R3 & R4).
  assert (Or : old x r) by (apply (inv_old Hx), in_vis; auto). split.
  - apply nr_let; [exact Nc|]. intros Q. destruct (Hc r Q) as [Z|[Z|[_ Z]]]; [contradiction| |].
    + destruct (Hb r Z). contradiction.
    + apply Z. exact (old_le L5 Or).
  - intros n Hn. apply in_app_or in Hn. destruct Hn as [Hn|Hn].
    + apply real_in in Hn. destruct Hn as [-> _]. right. left. rewrite Fy. auto.
    + destruct (Hc n Hn) as [Z|[Z|[Z1 Z2]]]; [auto| |].
      * destruct (Hb n Z). right. right. split; [exact (old_le Ly H)|assumption].
      * right. right. split; [exact Z1|]. intros W. apply Z2. exact (old_le L5 W).
Qed.

Lemma close_le s x y : close_scope s x = COk y -> ctx_le x y.
Proof. intros H. apply close_scope_ok in H. destruct H as [_ ->]. apply restore_scope_le. Qed.
Lemma close_frees s x y : close_scope s x = COk y -> frees y = sc_frees s.
Proof. intros H. apply close_scope_ok in H. destruct H as [_ ->]. reflexivity. Qed.
Lemma open_frees k x sc y : open_scope k x = (sc, y) -> sc_frees sc = frees x.
Proof. intros H. apply pair_inj in H. destruct H as [<- _]. reflexivity. Qed.

Lemma rec_kept comp e x body x1 s : kept comp -> shape_ih G comp Rec ->
  comp e CState x = COk (body, x1) -> inv x -> okc x s -> tab x ->
  no_rebind [] body /\ (forall n, In n (bnd body) -> old x1 n /\ ~ old x n) /\ tab x1 /\ ctx_le x x1
  /\ frees x1 = frees x /\ (forall n, In n (bnd s) \/ In n (bnd body) -> old x1 n).
Proof.
  intros HK HS E Hx Hs T. destruct (HK _ _ _ _ _ E Hx (okc_nil x) T) as (N & M & T1). pose proof (HS _ _ _ _ _ E) as S1.
  assert (Fx : frees x1 = frees x).
  { destruct (sh_frees S1) as (xs & F & L). destruct xs; [|discriminate]. rewrite app_nil_r in F. congruence. }
  assert (B : forall n, In n (bnd body) -> old x1 n /\ ~ old x n).
  { intros n Hn. destruct (M n Hn) as [[]|[[A B]|Z]]; [|exact Z]. rewrite Fx in B. contradiction. }
  split; [exact N|]. split; [exact B|]. split; [exact T1|]. split; [exact (sh_le S1)|]. split; [exact Fx|].
  intros n [H|H]; [exact (old_le (sh_le S1) (proj1 (proj2 Hs n H)))|apply B, H].
Qed.

Lemma span_kept comp e k (rg : bool) x lo x1 r x2 s c x3 : kept comp -> shape_ih G comp Par -> card G e = k ->
  next_mark x = (lo, x1) -> next_free_var_skip k x1 = COk (r, x2) ->
  comp e (CLetSpan r rg lo s) (push_mark lo x2) = COk (c, x3) -> inv x -> okc x s -> tab x ->
  no_rebind [] (CLetMark lo c) /\ made x (pop_mark x3) s (CLetMark lo c) /\ tab (pop_mark x3).
Proof.
  intros HK HS Hk Em Er Ec Hx Hs T.
  pose proof (sh_mark Em) as Sm. destruct (mark_new Em) as (A1 & A2 & A3 & A4 & A5 & A6).
  pose proof (inv_shape Sm Hx) as H1. apply next_free_var_skip_ok in Er. destruct Er as (a & b & F & Lb & E2). rewrite A4 in F.
  assert (Hvis : In r (frees x)) by (rewrite F; apply in_or_app; right; left; reflexivity).
  assert (Or : old x r) by (apply (inv_old Hx), in_vis; auto).
  assert (Hm2 : muts x2 = muts x /\ marks x2 = marks x) by (rewrite E2; apply pair_inj in Em; destruct Em as [_ <-]; auto).
  destruct Hm2 as [Mu Ma].
  assert (D : NoDup (vis x)) by exact (in_nodup Hx).
  assert (Dr : NoDup ((a ++ b) ++ muts x ++ marks x) /\ ~ In r ((a ++ b) ++ muts x ++ marks x)).
  { unfold vis in D. rewrite F in D. rewrite <- !app_assoc in D. cbn [app] in D. rewrite <- app_assoc. split; [exact (NoDup_remove_1 _ _ _ D)|exact (NoDup_remove_2 _ _ _ D)]. }
  destruct Dr as [D1 D2].
  assert (V : forall n, In n (vis (push_mark lo x2)) -> n = lo \/ (In n (vis x) /\ n <> r)).
  { intros n Hn. apply in_vis in Hn. unfold push_mark in Hn. cbn [with_marks frees muts marks] in Hn. rewrite Mu, Ma, E2 in Hn. cbn [with_frees frees] in Hn.
    rewrite in_app_iff in Hn. cbn [In] in Hn.
    assert (Q : n = lo \/ In n ((a ++ b) ++ muts x ++ marks x)) by (rewrite !in_app_iff in *; cbn [In] in *; clear - Hn; intuition auto).
    destruct Q as [->|Q]; [auto|right]. split.
    - apply in_vis. rewrite F. rewrite !in_app_iff in *. cbn [In]. tauto.
    - intros ->. contradiction. }
  assert (Le : ctx_le x (push_mark lo x2)).
  { eapply ctx_le_trans; [exact (sh_le Sm)|]. rewrite E2. eapply ctx_le_trans; [apply with_frees_le|apply with_marks_le]. }
  assert (Olo : old (push_mark lo x2) lo) by (rewrite E2; destruct lo; exact A2).
  assert (H2 : inv (push_mark lo x2)).
  { split.
    - unfold vis, push_mark. cbn [with_marks frees muts marks]. rewrite Mu, Ma, E2. cbn [with_frees frees]. rewrite (app_assoc (muts x)), app_assoc.
      apply NoDup_app_intro; [exact D1|repeat constructor; intros []|]. intros n Hn [<-|[]]. apply A1. apply (inv_old Hx), in_vis.
      rewrite F. rewrite !in_app_iff in *. cbn [In]. tauto.
    - apply Forall_forall. intros n Hn. apply V in Hn. destruct Hn as [->|[Hn _]]; [exact Olo|]. exact (old_le Le (inv_old Hx Hn)). }
  assert (Lo_s : ~ In lo (bnd s)) by exact (okc_old Hs A1).
  assert (R_s : ~ In r (bnd s)) by (intros Q; destruct (proj2 Hs r Q) as [_ Z]; apply Z, in_vis; auto).
  assert (Hs2 : okc (push_mark lo x2) (CLetSpan r rg lo s)).
  { split; [apply nr_let; [apply Hs|exact R_s]|]. intros n Hn. cbn [bnd] in Hn. apply in_app_or in Hn. destruct Hn as [Hn|Hn].
    - apply real_in in Hn. destruct Hn as [-> _]. split; [exact (old_le Le Or)|]. intros Q. apply V in Q. destruct Q as [->|[_ Q]]; [exact (A1 Or)|congruence].
    - destruct (proj2 Hs n Hn) as [P1 P2]. split; [exact (old_le Le P1)|]. intros Q. apply V in Q. destruct Q as [->|[Q _]]; contradiction. }
  assert (T2 : tab (push_mark lo x2)) by (rewrite E2; exact (tab_same A5 (ltac:(lia) : closure_uid x <= closure_uid x1) T)).
  destruct (HK _ _ _ _ _ Ec H2 Hs2 T2) as (N & M & T3). pose proof (HS _ _ _ _ _ Ec) as S3. cbn [ncard] in S3. rewrite Hk in S3.
  assert (Lo_c : ~ In lo (bnd c)).
  { intros Q. destruct (M lo Q) as [Z|[[Z _]|[_ Z]]]; [| |contradiction].
    - cbn [bnd] in Z. apply in_app_or in Z. destruct Z as [Z|Z]; [|contradiction]. apply real_in in Z. destruct Z as [<- _]. exact (A1 Or).
    - unfold push_mark in Z. cbn [with_marks frees] in Z. rewrite E2 in Z. cbn [with_frees frees] in Z. apply A1, (inv_old Hx), in_vis.
      left. rewrite F, !in_app_iff. apply in_app_or in Z. cbn [In]. tauto. }
  split; [apply nr_let; [exact N|exact Lo_c]|]. split; [|exact T3].
  assert (Fy : frees x3 = a).
  { destruct (sh_frees S3) as (xs & E & Lx). unfold push_mark in E. cbn [with_marks frees] in E. rewrite E2 in E. cbn [with_frees frees] in E.
    symmetry in E. apply (proj1 (app_len_inj E ltac:(lia))). }
  intros n Hn. cbn [bnd] in Hn. apply in_app_or in Hn. destruct Hn as [Hn|Hn].
  - apply real_in in Hn. destruct Hn as [-> _]. right. right. split; [|exact A1].
    assert (Z : old x3 lo) by exact (old_le (sh_le S3) Olo). destruct lo; exact Z.
  - destruct (M n Hn) as [Z|[[Z1 Z2]|[Z1 Z2]]].
    + cbn [bnd] in Z. apply in_app_or in Z. destruct Z as [Z|Z]; [|auto]. apply real_in in Z. destruct Z as [-> _]. right. left.
      split; [exact Hvis|]. cbn [pop_mark with_marks frees]. rewrite Fy. intros Q. apply D2. rewrite !in_app_iff. auto.
    + right. left. unfold push_mark in Z1. cbn [with_marks frees] in Z1. rewrite E2 in Z1. cbn [with_frees frees] in Z1. split; [|exact Z2].
      rewrite F, !in_app_iff. apply in_app_or in Z1. cbn [In]. tauto.
    + right. right. split; [destruct n; exact Z1|]. intros W. apply Z2. exact (old_le Le W).
Qed.

Lemma compile_kept fuel : forall m, cohm G m -> kept (compile G fuel m).
Proof.
  induction fuel as [|fuel IH]; intros m0 HC i s x c y H Hx Hs T; [discriminate|].
  cbn [compile] in H. apply cbind_ok in H. destruct H as (m & Em & H).
  assert (HM : cohm G m) by (destruct m; [exact I|destruct (eff_par Em) as [-> _]; exact HC]).
  destruct (expr_of G i) as [e|] eqn:Ee; [|discriminate].
  assert (HE : m = Par -> coh_expr G i e).
  { intros ->. destruct (eff_par Em) as [-> Hu']. exact (HC i e Ee Hu'). }
  assert (HSh : shape_ih G (compile G fuel m) m) by (intros ? ? ? ? ? K; eapply compile_shape; eassumption).
  assert (HSr : shape_ih G (compile G fuel Rec) Rec) by (intros ? ? ? ? ? K; eapply compile_shape; [exact I|eassumption]).
  assert (IHm : kept (compile G fuel m)) by (apply IH, HM).
  assert (IHr : kept (compile G fuel Rec)) by (apply IH, I).
  assert (Ns : no_rebind [] s) by apply Hs.
  clear Em.
  destruct e as [lit| |cls|id|p|l|l|e|e|e|e|e|e bx f|e t|e|e].
  - apply COk_inj, pair_inj in H. destruct H as [<- <-]. split; [cbn; auto|]. split; [|exact T]. intros n Hn. cbn [bnd] in Hn. rewrite app_nil_r in Hn. auto.
  - destruct m.
    + apply COk_inj, pair_inj in H. destruct H as [<- <-]. split; [cbn; auto|]. split; [|exact T]. intros n Hn. cbn [bnd] in Hn. rewrite app_nil_r in Hn. auto.
    + apply cbind_ok in H. destruct H as ([v x1] & E & H). apply COk_inj, pair_inj in H. destruct H as [<- <-].
      apply next_free_var_ok in E. destruct E as [F E]. destruct (taken Hx Hs F) as [_ Tk]. destruct (Tk v (or_introl eq_refl)) as (R1 & R2 & R3 & R4).
      split; [|split].
      * split; [exact (nr_let Ns R3)|exact I].
      * intros n Hn. cbn [bnd] in Hn. rewrite app_nil_r in Hn. ins. destruct Hn as [[-> _]|Hn]; auto.
      * rewrite E. exact T.
  - apply cbind_ok in H. destruct H as ([v x1] & E & H). apply cbind_ok in H. destruct H as (k & _ & H).
    destruct (next_mark x1) as [mk x2] eqn:E2. apply COk_inj, pair_inj in H. destruct H as [<- <-].
    destruct (mark_new E2) as (A1 & A2 & A3 & A4 & A5 & A6).
    assert (Q : ~ In v (bnd s) /\ tab x1 /\ (forall n, old x n <-> old x1 n) /\ v <> mk /\ (v <> NX -> In v (frees x) /\ ~ In v (frees x1))).
    { destruct m.
      - apply COk_inj, pair_inj in E. destruct E as [<- <-]. split; [intros Q; destruct (proj2 Hs _ Q) as [Z _]; exact Z|]. split; [exact T|]. split; [tauto|]. split; [congruence|congruence].
      - apply next_free_var_ok in E. destruct E as [F E]. destruct (taken Hx Hs F) as [_ Tk]. destruct (Tk v (or_introl eq_refl)) as (R1 & R2 & R3 & R4).
        assert (O : forall n, old x n <-> old x1 n) by (intros n; rewrite E; destruct n; reflexivity).
        split; [exact R3|]. split; [rewrite E; exact T|]. split; [exact O|]. split; [|auto].
        intros ->. apply A1, O. apply (inv_old Hx), in_vis. auto. }
    destruct Q as (Q1 & Q2 & Q3 & Q4 & Q5). split; [|split].
    + apply nr_let.
      * split; [exact (nr_let Ns Q1)|cbn; auto].
      * cbn [bnd]. rewrite app_nil_r. ins. intros [[-> _]|Q]; [congruence|]. apply A1, Q3. apply (proj2 Hs _ Q).
    + intros n Hn. cbn [bnd] in Hn. rewrite app_nil_r in Hn. ins. destruct Hn as [[-> _]|[[-> Hn]|Hn]]; [|right; left; rewrite A4; auto|auto].
      right. right. split; [exact A2|]. intros W. apply A1, Q3, W.
    + exact (tab_same A5 (ltac:(lia) : closure_uid x1 <= closure_uid x2) Q2).
  - destruct m.
    + apply COk_inj, pair_inj in H. destruct H as [<- <-]. split; [cbn; auto|]. split; [|exact T]. intros n Hn. cbn [bnd] in Hn. rewrite app_nil_r in Hn. auto.
    + apply cbind_ok in H. destruct H as ([vs x1] & E & H). apply COk_inj, pair_inj in H. destruct H as [<- <-].
      apply pop_vars_ok in E. destruct E as (F & _ & E). destruct (taken Hx Hs F) as [Nd Tk]. split; [|split].
      * split; [|exact I]. split; [exact Nd|]. split; [apply Forall_forall; intros v Hv; right; intros []|].
        apply (nr_any Ns). intros n Hn Q. rewrite app_nil_r in Q. destruct (Tk n Q) as (_ & _ & Z & _). contradiction.
      * intros n Hn. cbn [bnd] in Hn. rewrite app_nil_r in Hn. apply in_app_or in Hn. destruct Hn as [Hn|Hn]; [|auto].
        apply real_flat in Hn. destruct Hn as [Hn _]. destruct (Tk n Hn) as (Z1 & Z2 & _). auto.
      * rewrite E. exact T.
  - destruct m.
    + apply COk_inj, pair_inj in H. destruct H as [<- <-]. split; [cbn; auto|]. split; [|exact T]. intros n Hn. cbn [bnd] in Hn. rewrite app_nil_r in Hn. auto.
    + apply cbind_ok in H. destruct H as ([vs x1] & E & H). apply COk_inj, pair_inj in H. destruct H as [<- <-].
      apply pop_vars_ok in E. destruct E as (F & _ & E). destruct (taken Hx Hs F) as [Nd Tk]. split; [|split].
      * split; [|exact I]. split; [exact Nd|]. split; [apply Forall_forall; intros v Hv; right; intros []|].
        apply (nr_any Ns). intros n Hn Q. rewrite app_nil_r in Q. destruct (Tk n Q) as (_ & _ & Z & _). contradiction.
      * intros n Hn. cbn [bnd] in Hn. rewrite app_nil_r in Hn. apply in_app_or in Hn. destruct Hn as [Hn|Hn]; [|auto].
        apply real_flat in Hn. destruct Hn as [Hn _]. destruct (Tk n Hn) as (Z1 & Z2 & _). auto.
      * rewrite E. exact T.
  - exact (seq_kept HSh IHm H Hx Hs T).
  - (* choice *)
    destruct (success_as_closure s x) as [s1 x1] eqn:Es. destruct (next_mark x1) as [mk x2] eqn:E2. destruct (next_branch x2) as [bf x3] eqn:E3.
    apply cbind_ok in H. destruct H as ([bs y'] & E & H). destruct bs as [|b r]; [discriminate|].
    apply COk_inj, pair_inj in H. destruct H as [<- <-].
    assert (HF : Forall (fun j => ncard G m j = ncard G m i) l).
    { destruct m; [apply Forall_forall; reflexivity|exact (HE eq_refl)]. }
    destruct (closure_kept Es Hx Hs T) as (N1 & M1 & T1). pose proof (sh_closure Es) as S1. pose proof (inv_shape S1 Hx) as H1.
    pose proof (okc_shape S1 Hx Hs N1 M1) as Hs1. pose proof (sh_mark E2) as S2. pose proof (sh_branch E3) as S3.
    destruct (mark_new E2) as (A1 & A2 & A3 & A4 & A5 & A6). destruct (branch_new E3) as (B1 & B2 & B3 & B4 & B5 & B6).
    pose proof (shape_trans S2 S3) as S23. cbn [Nat.add] in S23. pose proof (inv_shape S23 H1) as H3.
    assert (Hs3 : okc x3 s1).
    { split; [exact N1|]. intros n Hn. destruct (proj2 Hs1 n Hn) as [P1 P2]. split; [exact (old_le (sh_le S23) P1)|].
      intros Q. exact (P2 (vis_shape S23 Q)). }
    assert (Nb : ~ old x1 bf) by (intros Q; apply B1; exact (old_le (sh_le S2) Q)).
    assert (V4 : forall n, In n (vis (push_mut bf x3)) -> n = bf \/ In n (vis x3)).
    { intros n Hn. apply in_vis in Hn. rewrite in_vis. unfold push_mut in Hn. cbn [with_muts frees muts marks] in Hn. rewrite in_app_iff in Hn. cbn [In] in Hn. intuition. }
    assert (H4 : inv (push_mut bf x3)).
    { split.
      - unfold vis, push_mut. cbn [with_muts frees muts marks]. rewrite <- app_assoc. pose proof (in_nodup H3) as D. unfold vis in D.
        eapply Permutation_NoDup with (l := bf :: frees x3 ++ muts x3 ++ marks x3).
        + cbn [app]. rewrite !app_assoc. apply Permutation_middle.
        + constructor; [|exact D]. intros Q. apply Nb. apply (inv_old H1). apply (vis_shape S23). exact Q.
      - apply Forall_forall. intros n Hn. apply V4 in Hn. destruct Hn as [->|Hn]; [destruct bf; exact B2|]. pose proof (inv_old H3 Hn) as Q. destruct n; exact Q. }
    assert (Hs4 : okc (push_mut bf x3) s1).
    { split; [exact N1|]. intros n Hn. destruct (proj2 Hs3 n Hn) as [P1 P2]. split; [destruct n; exact P1|].
      intros Q. apply V4 in Q. destruct Q as [->|Q]; [|contradiction]. apply Nb. apply (proj2 Hs1 bf Hn). }
    assert (T4 : tab (push_mut bf x3)).
    { apply (@tab_same x1); [cbn; congruence|cbn; lia|exact T1]. }
    destruct (branches_kept HSh IHm (eq_refl : muts (push_mut bf x3) = muts x3 ++ [bf]) H4 Hs4 HF (ctx_le_refl _) eq_refl T4 E) as (Fb & Ty).
    destruct (compile_branches_shape HSh HF E) as (L4 & _ & _ & xs & Fx & Lx).
    assert (P : forall n q, In q (b :: r) -> In n (bnd q) -> In n (bnd s1) \/ (In n (frees x) /\ ~ In n (frees y')) \/ (old y' n /\ ~ old (push_mut bf x3) n)).
    { intros n q Hq Hn. rewrite Forall_forall in Fb. destruct (Fb q Hq) as [_ Mq]. destruct (Mq n Hn) as [Z|[[Z1 Z2]|Z]]; auto.
      right. left. split; [|exact Z2]. cbn [push_mut with_muts frees] in Z1. destruct (sh_frees (shape_trans S1 S23)) as (zs & Ez & _). rewrite Ez. apply in_or_app. auto. }
    assert (O4 : forall n, old x3 n -> old (push_mut bf x3) n) by (intros n Q; destruct n; exact Q).
    assert (Lm : ctx_le x y').
    { eapply ctx_le_trans; [exact (sh_le S1)|]. eapply ctx_le_trans; [exact (sh_le S23)|]. eapply ctx_le_trans; [apply with_muts_le|exact L4]. }
    assert (Nam : forall n, In n (bnd b ++ bnd (choice_code bf mk r)) -> exists q, In q (b :: r) /\ In n (bnd q)).
    { intros n Hn. apply in_app_or in Hn. destruct Hn as [Hn|Hn]; [exists b; split; [left; reflexivity|exact Hn]|].
      apply choice_bnd in Hn. destruct Hn as (q & Z1 & Z2). exists q. split; [right; exact Z1|exact Z2]. }
    assert (Nbf : ~ In bf (bnd b ++ bnd (choice_code bf mk r))).
    { intros Q. destruct (Nam _ Q) as (q & Hq & Hn). destruct (P _ _ Hq Hn) as [Z|[[Z _]|[_ Z]]].
      - apply Nb. apply (proj2 Hs1 _ Z).
      - apply Nb. apply (old_le (sh_le S1)), (inv_old Hx), in_vis. auto.
      - apply Z, O4, B2. }
    assert (Nmk : ~ In mk (bnd b ++ bnd (choice_code bf mk r))).
    { intros Q. destruct (Nam _ Q) as (q & Hq & Hn). destruct (P _ _ Hq Hn) as [Z|[[Z _]|[_ Z]]].
      - apply A1. apply (proj2 Hs1 _ Z).
      - apply A1. apply (old_le (sh_le S1)), (inv_old Hx), in_vis. auto.
      - apply Z, O4. exact (old_le (sh_le S3) A2). }
    assert (Dif : mk <> bf) by (intros Q; subst; contradiction).
    assert (Nr : no_rebind [] b /\ no_rebind [] (choice_code bf mk r)).
    { rewrite Forall_forall in Fb. split; [apply (Fb b), in_eq|]. apply choice_nr, Forall_forall. intros q Hq. apply (Fb q), in_cons, Hq. }
    split; [|split; [|exact Ty]].
    + apply nr_let; [apply nr_let; [exact Nr|exact Nbf]|]. cbn [bnd]. intros Q. apply in_app_or in Q. destruct Q as [Q|Q]; [|contradiction].
      apply real_in in Q. destruct Q as [Q _]. congruence.
    + intros n Hn. cbn [bnd] in Hn. apply in_app_or in Hn. destruct Hn as [Hn|Hn].
      { apply real_in in Hn. destruct Hn as [-> _]. right. right. split.
        - eapply old_le; [exact L4|]. apply O4. exact (old_le (sh_le S3) A2).
        - intros W. apply A1. exact (old_le (sh_le S1) W). }
      apply in_app_or in Hn. destruct Hn as [Hn|Hn].
      { apply real_in in Hn. destruct Hn as [-> _]. right. right. split.
        - eapply old_le; [exact L4|]. apply O4. exact B2.
        - intros W. apply Nb. exact (old_le (sh_le S1) W). }
      destruct (Nam _ Hn) as (q & Hq & Hn'). destruct (P _ _ Hq Hn') as [Z|[Z|[Z1 Z2]]]; [|auto|].
      * destruct (M1 n Z) as [W|[[W1 W2]|[W1 W2]]]; [auto| |].
        -- right. left. split; [exact W1|]. intros W. apply W2. destruct (sh_frees S23) as (zs & Ez & _). rewrite Ez.
           apply in_or_app. left. cbn [push_mut with_muts frees save_scope sc_frees] in Fx. rewrite Fx. apply in_or_app. auto.
        -- right. right. split; [|exact W2]. eapply old_le; [exact L4|]. apply O4. exact (old_le (sh_le S23) W1).
      * right. right. split; [exact Z1|]. intros W. apply Z2, O4. exact (old_le (sh_le S23) (old_le (sh_le S1) W)).
  - (* star *)
    destruct m.
    + apply cbind_ok in H. destruct H as ([body x1'] & E & H). apply cbind_ok in E. destruct E as ([body' x1] & E & E').
      apply COk_inj, pair_inj in E'. destruct E' as [-> <-]. apply COk_inj in H.
      destruct (rec_kept IHr HSr E Hx Hs T) as (Nb & Bb & T1 & L1 & F1 & O1).
      destruct (repeat_kept H Ns Nb O1) as (N & M & Ty). split; [exact N|]. split; [|exact (Ty T1)].
      pose proof (sh_le (sh_repeat H)) as Ly. intros n Hn. destruct (M n Hn) as [Z|[Z|[Z1 Z2]]]; [auto| |].
      * destruct (Bb n Z) as [W1 W2]. right. right. split; [exact (old_le Ly W1)|exact W2].
      * right. right. split; [exact Z1|]. intros W. apply Z2. exact (old_le L1 W).
    + apply cbind_ok in H. destruct H as ([r x1] & Er & H). destruct (open_scope (card G e) x1) as [sc x2] eqn:Eo.
      apply cbind_ok in H. destruct H as ([body x4'] & E & H). apply cbind_ok in E. destruct E as ([body' x4] & E & E').
      apply COk_inj, pair_inj in E'. destruct E' as [-> <-]. apply cbind_ok in H. destruct H as (x5 & Ec & H).
      destruct (repeat_code 0 s CFailure body x5) as [c' x6] eqn:Eq. apply COk_inj, pair_inj in H. destruct H as [<- <-].
      destruct (scope_kept (opt := false) IHm HSh Er Eo E Ec Hx T) as (Nb & Bb & T5).
      assert (L5 : ctx_le x x5).
      { eapply ctx_le_trans; [exact (sh_le (sh_var Er))|]. pose proof (open_scope_le (card G e) x1) as Lo. rewrite Eo in Lo. eapply ctx_le_trans; [exact Lo|].
        eapply ctx_le_trans; [apply with_muts_le|]. eapply ctx_le_trans; [exact (sh_le (HSh _ _ _ _ _ E))|]. eapply ctx_le_trans; [apply with_ncomb_le|exact (close_le Ec)]. }
      destruct (repeat_kept Eq Ns Nb) as (N & M & Ty).
      { intros n [Z|Z]; [exact (old_le L5 (proj1 (proj2 Hs n Z)))|apply Bb, Z]. }
      assert (Fy : frees x6 = frees x1) by (rewrite (repeat_frees Eq), (close_frees Ec); exact (open_frees Eo)).
      destruct (collected Hx Hs Er L5 (sh_le (sh_repeat Eq)) Fy Bb N M) as [Z1 Z2].
      split; [exact Z1|]. split; [exact Z2|exact (Ty T5)].
  - (* plus *)
    destruct m.
    + apply cbind_ok in H. destruct H as ([body x1'] & E & H). apply cbind_ok in E. destruct E as ([body' x1] & E & E').
      apply COk_inj, pair_inj in E'. destruct E' as [-> <-]. apply COk_inj in H.
      destruct (rec_kept IHr HSr E Hx Hs T) as (Nb & Bb & T1 & L1 & F1 & O1).
      destruct (repeat_kept H Ns Nb O1) as (N & M & Ty). split; [exact N|]. split; [|exact (Ty T1)].
      pose proof (sh_le (sh_repeat H)) as Ly. intros n Hn. destruct (M n Hn) as [Z|[Z|[Z1 Z2]]]; [auto| |].
      * destruct (Bb n Z) as [W1 W2]. right. right. split; [exact (old_le Ly W1)|exact W2].
      * right. right. split; [exact Z1|]. intros W. apply Z2. exact (old_le L1 W).
    + apply cbind_ok in H. destruct H as ([r x1] & Er & H). destruct (open_scope (card G e) x1) as [sc x2] eqn:Eo.
      apply cbind_ok in H. destruct H as ([body x4'] & E & H). apply cbind_ok in E. destruct E as ([body' x4] & E & E').
      apply COk_inj, pair_inj in E'. destruct E' as [-> <-]. apply cbind_ok in H. destruct H as (x5 & Ec & H).
      destruct (repeat_code 1 s CFailure body x5) as [c' x6] eqn:Eq. apply COk_inj, pair_inj in H. destruct H as [<- <-].
      destruct (scope_kept (opt := false) IHm HSh Er Eo E Ec Hx T) as (Nb & Bb & T5).
      assert (L5 : ctx_le x x5).
      { eapply ctx_le_trans; [exact (sh_le (sh_var Er))|]. pose proof (open_scope_le (card G e) x1) as Lo. rewrite Eo in Lo. eapply ctx_le_trans; [exact Lo|].
        eapply ctx_le_trans; [apply with_muts_le|]. eapply ctx_le_trans; [exact (sh_le (HSh _ _ _ _ _ E))|]. eapply ctx_le_trans; [apply with_ncomb_le|exact (close_le Ec)]. }
      destruct (repeat_kept Eq Ns Nb) as (N & M & Ty).
      { intros n [Z|Z]; [exact (old_le L5 (proj1 (proj2 Hs n Z)))|apply Bb, Z]. }
      assert (Fy : frees x6 = frees x1) by (rewrite (repeat_frees Eq), (close_frees Ec); exact (open_frees Eo)).
      destruct (collected Hx Hs Er L5 (sh_le (sh_repeat Eq)) Fy Bb N M) as [Z1 Z2].
      split; [exact Z1|]. split; [exact Z2|exact (Ty T5)].
  - (* option *)
    destruct m.
    + apply cbind_ok in H. destruct H as ([body x1'] & E & H). apply cbind_ok in E. destruct E as ([body' x1] & E & E').
      apply COk_inj, pair_inj in E'. destruct E' as [-> <-]. apply COk_inj in H.
      destruct (rec_kept IHr HSr E Hx Hs T) as (Nb & Bb & T1 & L1 & F1 & O1).
      destruct (optional_kept H Ns Nb O1) as (N & M & Ty). split; [exact N|]. split; [|exact (Ty T1)].
      pose proof (sh_le (sh_optional H)) as Ly. intros n Hn. destruct (M n Hn) as [Z|[Z|[Z1 Z2]]]; [auto| |].
      * destruct (Bb n Z) as [W1 W2]. right. right. split; [exact (old_le Ly W1)|exact W2].
      * right. right. split; [exact Z1|]. intros W. apply Z2. exact (old_le L1 W).
    + apply cbind_ok in H. destruct H as ([r x1] & Er & H). destruct (open_scope (card G e) x1) as [sc x2] eqn:Eo.
      apply cbind_ok in H. destruct H as ([body x4'] & E & H). apply cbind_ok in E. destruct E as ([body' x4] & E & E').
      apply COk_inj, pair_inj in E'. destruct E' as [-> <-]. apply cbind_ok in H. destruct H as (x5 & Ec & H).
      destruct (optional_code s body x5) as [c' x6] eqn:Eq. apply COk_inj, pair_inj in H. destruct H as [<- <-].
      destruct (scope_kept (opt := true) IHm HSh Er Eo E Ec Hx T) as (Nb & Bb & T5).
      assert (L5 : ctx_le x x5).
      { eapply ctx_le_trans; [exact (sh_le (sh_var Er))|]. pose proof (open_scope_le (card G e) x1) as Lo. rewrite Eo in Lo. eapply ctx_le_trans; [exact Lo|].
        eapply ctx_le_trans; [apply with_muts_le|]. eapply ctx_le_trans; [exact (sh_le (HSh _ _ _ _ _ E))|]. eapply ctx_le_trans; [apply with_ncomb_le|exact (close_le Ec)]. }
      destruct (optional_kept Eq Ns Nb) as (N & M & Ty).
      { intros n [Z|Z]; [exact (old_le L5 (proj1 (proj2 Hs n Z)))|apply Bb, Z]. }
      assert (Fy : frees x6 = frees x1) by (rewrite (optional_frees Eq), (close_frees Ec); exact (open_frees Eo)).
      destruct (collected Hx Hs Er L5 (sh_le (sh_optional Eq)) Fy Bb N M) as [Z1 Z2].
      split; [exact Z1|]. split; [exact Z2|exact (Ty T5)].
  - (* not *)
    destruct m; [|discriminate]. destruct (next_mark x) as [mk x1] eqn:E1. apply cbind_ok in H. destruct H as ([body x2'] & E & H). apply cbind_ok in E. destruct E as ([body' x2] & E & E').
    apply COk_inj, pair_inj in E'. destruct E' as [-> <-]. apply COk_inj, pair_inj in H. destruct H as [<- <-].
    pose proof (sh_mark E1) as S1. destruct (mark_new E1) as (A1 & A2 & A3 & A4 & A5 & A6). pose proof (inv_shape S1 Hx) as H1.
    assert (T1 : tab x1) by exact (tab_same A5 (ltac:(lia) : closure_uid x <= closure_uid x1) T).
    destruct (rec_kept IHr HSr E H1 (okc_nil x1) T1) as (Nb & Bb & T2 & L2 & F2 & _).
    split; [|split; [|exact T2]].
    + apply nr_let; [cbn; auto|]. cbn [bnd app]. rewrite ?app_nil_r. rewrite in_app_iff. intros [Q|Q]; [destruct (Bb _ Q); contradiction|exact (okc_old Hs A1 Q)].
    + intros n Hn. cbn [bnd app] in Hn. rewrite ?app_nil_r in Hn. ins. destruct Hn as [[-> _]|[Hn|Hn]]; [| |auto].
      * right. right. split; [exact (old_le L2 A2)|exact A1].
      * destruct (Bb n Hn) as [W1 W2]. right. right. split; [exact W1|]. intros W. apply W2. exact (old_le (sh_le S1) W).
  - (* and *)
    destruct m; [|discriminate]. destruct (next_mark x) as [mk x1] eqn:E1. apply cbind_ok in H. destruct H as ([body x2'] & E & H). apply cbind_ok in E. destruct E as ([body' x2] & E & E').
    apply COk_inj, pair_inj in E'. destruct E' as [-> <-]. apply COk_inj, pair_inj in H. destruct H as [<- <-].
    pose proof (sh_mark E1) as S1. destruct (mark_new E1) as (A1 & A2 & A3 & A4 & A5 & A6). pose proof (inv_shape S1 Hx) as H1.
    assert (T1 : tab x1) by exact (tab_same A5 (ltac:(lia) : closure_uid x <= closure_uid x1) T).
    destruct (rec_kept IHr HSr E H1 (okc_nil x1) T1) as (Nb & Bb & T2 & L2 & F2 & _).
    split; [|split; [|exact T2]].
    + apply nr_let; [cbn; auto|]. cbn [bnd app]. rewrite ?app_nil_r. rewrite in_app_iff. intros [Q|Q]; [destruct (Bb _ Q); contradiction|exact (okc_old Hs A1 Q)].
    + intros n Hn. cbn [bnd app] in Hn. rewrite ?app_nil_r in Hn. ins. destruct Hn as [[-> _]|[Hn|Hn]]; [| |auto].
      * right. right. split; [exact (old_le L2 A2)|exact A1].
      * destruct (Bb n Hn) as [W1 W2]. right. right. split; [exact W1|]. intros W. apply W2. exact (old_le (sh_le S1) W).
  - (* action *)
    destruct m; [exact (IHr _ _ _ _ _ H Hx Hs T)|].
    apply cbind_ok in H. destruct H as ([r x1] & Er & H). destruct (open_scope (card G e) x1) as [sc x2] eqn:Eo.
    apply cbind_ok in H. destruct H as ([c0 x3'] & E & H). apply cbind_ok in E. destruct E as ([c1 x3] & E & E').
    apply COk_inj, pair_inj in E'. destruct E' as [-> <-]. apply cbind_ok in H. destruct H as (x4 & Ec & H). apply COk_inj, pair_inj in H. destruct H as [<- <-].
    pose proof (sh_var Er) as S1. pose proof (inv_shape S1 Hx) as H1.
    apply next_free_var_ok in Er. destruct Er as [F E1]. destruct (taken Hx Hs F) as [_ Tk]. destruct (Tk r (or_introl eq_refl)) as (R1 & R2 & R3 & R4).
    assert (Or : old x r) by (apply (inv_old Hx), in_vis; auto).
    assert (H2 : inv x2).
    { assert (Q : x2 = with_muts x2 []) by (apply pair_inj in Eo; destruct Eo as [_ <-]; reflexivity). rewrite Q. apply (scope_inv Eo H1).
      - intros n [].
      - pose proof (in_nodup H1) as D. unfold vis in D. apply NoDup_app_r, NoDup_app_r in D. exact D.
      - intros n []. }
    assert (L2 : ctx_le x x2).
    { eapply ctx_le_trans; [exact (sh_le S1)|]. pose proof (open_scope_le (card G e) x1) as Lo. rewrite Eo in Lo. exact Lo. }
    assert (V2 : forall n, In n (vis x2) -> old x n -> In n (marks x)).
    { intros n Hn On. apply in_vis in Hn. destruct Hn as [Hn|[Hn|Hn]].
      - exfalso. eapply scope_new; [exact Eo|exact Hn|]. exact (old_le (sh_le S1) On).
      - apply pair_inj in Eo. destruct Eo as [_ <-]. destruct Hn.
      - apply pair_inj in Eo. destruct Eo as [_ <-]. rewrite E1 in Hn. exact Hn. }
    assert (Rm : ~ In r (marks x)).
    { intros Q. pose proof (in_nodup Hx) as D. unfold vis in D. apply (NoDup_app_disj D R1). apply in_or_app. auto. }
    match type of E with compile _ _ _ _ ?k _ = _ => set (s2 := k) in * end.
    assert (Hs2 : okc x2 s2).
    { split; [apply nr_let; [exact Ns|exact R3]|]. intros n Hn. cbn [s2 bnd] in Hn. apply in_app_or in Hn. destruct Hn as [Hn|Hn].
      - apply real_in in Hn. destruct Hn as [-> _]. split; [exact (old_le L2 Or)|]. intros Q. exact (Rm (V2 _ Q Or)).
      - destruct (proj2 Hs n Hn) as [P1 P2]. split; [exact (old_le L2 P1)|]. intros Q. apply P2, in_vis. auto. }
    assert (T2 : tab x2) by (apply pair_inj in Eo; destruct Eo as [_ <-]; rewrite E1; exact T).
    destruct (IHm _ _ _ _ _ E H2 Hs2 T2) as (N & M & T3). pose proof (HSh _ _ _ _ _ E) as S3.
    apply close_scope_ok in Ec. destruct Ec as [F3 Ec].
    assert (F4 : frees x4 = frees x1) by (rewrite Ec; cbn; exact (open_frees Eo)).
    assert (O4 : forall n, old x3 n -> old x4 n) by (intros n Q; rewrite Ec; destruct n; exact Q).
    split; [exact N|]. split; [|rewrite Ec; exact T3]. intros n Hn. destruct (M n Hn) as [Z|[[Z1 Z2]|[Z1 Z2]]].
    + cbn [s2 bnd] in Z. apply in_app_or in Z. destruct Z as [Z|Z]; [|auto]. apply real_in in Z. destruct Z as [-> _]. right. left. rewrite F4. auto.
    + right. right. split; [apply O4, (old_le (sh_le S3)), (inv_old H2), in_vis; auto|]. intros W. eapply scope_new; [exact Eo|exact Z1|]. exact (old_le (sh_le S1) W).
    + right. right. split; [apply O4, Z1|]. intros W. apply Z2. exact (old_le L2 W).
  - exact (IHm _ _ _ _ _ H Hx Hs T).
  - destruct m; [exact (IHr _ _ _ _ _ H Hx Hs T)|]. destruct (next_mark x) as [lo x1] eqn:E1. apply cbind_ok in H. destruct H as ([r x2] & Er & H).
    apply cbind_ok in H. destruct H as ([c0 x3'] & E & H). apply cbind_ok in E. destruct E as ([c1 x3] & E & E').
    apply COk_inj, pair_inj in E'. destruct E' as [-> <-]. apply COk_inj, pair_inj in H. destruct H as [<- <-].
    exact (span_kept IHm HSh eq_refl E1 Er E Hx Hs T).
  - destruct m; [exact (IHr _ _ _ _ _ H Hx Hs T)|]. destruct (next_mark x) as [lo x1] eqn:E1. apply cbind_ok in H. destruct H as ([r x2] & Er & H).
    apply cbind_ok in H. destruct H as ([c0 x3'] & E & H). apply cbind_ok in E. destruct E as ([c1 x3] & E & E').
    apply COk_inj, pair_inj in E'. destruct E' as [-> <-]. apply COk_inj, pair_inj in H. destruct H as [<- <-].
    exact (span_kept IHm HSh eq_refl E1 Er E Hx Hs T).
Qed.

Lemma inv_new : inv new_ctx.
Proof. split; constructor. Qed.
Lemma tab_new : tab new_ctx.
Proof. split; [constructor|]. split; constructor. Qed.

Theorem recognizer_no_rebind rl f : gen_recognizer G rl = COk f -> func_no_rebind f.
Proof.
  unfold gen_recognizer. intros H. apply cbind_ok in H. destruct H as ([c x] & E & H). apply COk_inj in H. subst f.
  assert (K : okc new_ctx (CSuccess [])) by (split; [exact I|intros n []]).
  destruct (@compile_kept _ Rec I _ _ _ _ _ E inv_new K tab_new) as (N & _ & A & B & _). split; [exact B|]. split; [exact A|exact N].
Qed.
Theorem parser_no_rebind rl f : coherent G -> gen_parser G rl = COk f -> func_no_rebind f.
Proof.
  unfold gen_parser. intros HC H. destruct (ty_of G (rexpr rl)) as [t|] eqn:Et; [|discriminate].
  destruct (ty_is_unit t).
  - apply COk_inj in H. subst f. split; [constructor|]. split; [constructor|exact I].
  - destruct (open_scope (card G (rexpr rl)) new_ctx) as [sc x1] eqn:Eo. apply cbind_ok in H. destruct H as ([c x2] & E & H).
    apply cbind_ok in H. destruct H as (x3 & Ec & H). apply COk_inj in H. subst f.
    apply close_scope_ok in Ec. destruct Ec as [_ ->].
    assert (Q : x1 = with_muts x1 []) by (apply pair_inj in Eo; destruct Eo as [_ <-]; reflexivity).
    assert (H1 : inv x1).
    { rewrite Q. apply (scope_inv Eo inv_new); [intros n []|constructor|intros n []]. }
    assert (T1 : tab x1) by (apply pair_inj in Eo; destruct Eo as [_ <-]; exact tab_new).
    assert (K : okc x1 (CSuccess (frees x1))) by (split; [exact I|intros n []]).
    destruct (@compile_kept _ Par HC _ _ _ _ _ E H1 K T1) as (N & _ & A & B & _). split; [exact B|]. split; [exact A|exact N].
Qed.
End Gen.
