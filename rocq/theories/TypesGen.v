(** The generated code is well typed (CodeTypes.v): the types of the variables do not depend on the place in the code, and follow
    from the types of the expressions. *)
From Verif Require Import Base Grammar PegSpec Target Compile TargetFacts ScopeFacts CompileShape ScopeGen NoShadow TreeShapes CodeTypes.
Set Implicit Arguments. Unset Strict Implicit.
Open Scope list_scope.

(** ---------------- one type for each name of a function ---------------- *)
Definition var_ty (th : nat -> nat -> tsh) (x : name) : lty :=
  match x with NVar u i => LVal (th u i) | NMark _ => LStream | NBranch _ => LBool | NCounter _ => LNat | NX => LVal SChar end.
Definition vals (th : nat -> nat -> tsh) (xs : list name) (ts : list tsh) : Prop := Forall2 (fun x t => var_ty th x = LVal t) xs ts.

Section Fixed.
Variable P : decls.
Variables (th : nat -> nat -> tsh) (rho : nat -> tsh) (cl : ctable).
Local Notation vt := (var_ty th).
Fixpoint tyd (st : sty) (c : code) (t : tsh) : Prop :=
  match c with
  | CState => s_data st = t
  | CSuccess xs => exists ts, vals th xs ts /\ t = assemble ts
  | CFailure => True
  | CTail id => P Rec (Local id) t /\ s_data st = SUnit
  | CCall k ms fs ks => (exists b, In (k, mkClosure ms fs ks b) cl) /\ rho k = t /\ s_data st = SUnit
  | CLetMark m c => vt m = LStream /\ tyd st c t
  | CLetBool x _ c => vt x = LBool /\ tyd st c t
  | CLetCounter x c => vt x = LNat /\ tyd st c t
  | CLetNone x c => (exists u, vt x = LVal (SOpt u)) /\ tyd st c t
  | CLetVec x c => (exists u, vt x = LVal (SVec u)) /\ tyd st c t
  | CLetAct x f un _ args c => (exists ts, vals th args ts /\ (un = false -> d_act P f ts)) /\ vt x = LVal SRust /\ tyd st c t
  | CLetSpan x _ lo c => vt lo = LStream /\ vt x = LVal SRust /\ tyd st c t
  | CSetBool x _ c => vt x = LBool /\ tyd st c t
  | CSetSome x xs c => (exists ts, vals th xs ts /\ vt x = LVal (SOpt (assemble ts))) /\ tyd st c t
  | CPush x xs c => (exists ts, vals th xs ts /\ vt x = LVal (SVec (assemble ts))) /\ tyd st c t
  | CMatchNext x s f => s_mut st = true /\ match x with Some x => vt x = LVal SChar | None => True end /\ tyd st s t /\ tyd st f t
  | CMatchClass x _ s f => s_mut st = true /\ vt x = LVal SChar /\ tyd st s t /\ tyd st f t
  | CPrefix _ s f => s_mut st = true /\ tyd st s t /\ tyd st f t
  | CError _ c => s_mut st = true /\ tyd st c t
  | CRestore m c | CIfFailedRestore m c => s_mut st = true /\ s_data st = SUnit /\ vt m = LStream /\ tyd st c t
  | CRestoreFF m c => vt m = LStream /\ tyd fresh_state c t
  | CAssign b c => if in_choice c then exists u, tyd st b u /\ tyd (mkSty false u) c t
                   else s_mut st = true /\ tyd st b (s_data st) /\ tyd st c t
  | CIfTrue x c1 c2 => vt x = LBool /\ tyd st c1 t /\ tyd st c2 t
  | CTestRestore m c1 c2 => s_mut st = true /\ s_data st = SUnit /\ vt m = LStream /\ tyd st c1 t /\ tyd st c2 t
  | CCallRec p s f => P Rec p SUnit /\ s_mut st = true /\ s_data st = SUnit /\ tyd st s t /\ tyd st f t
  | CCallPar p xs s f => (exists us, P Par p (assemble us) /\ vals th xs us) /\ s_mut st = true /\ s_data st = SUnit /\ tyd st s t /\ tyd st f t
  | CLoop b x m c => s_mut st = true /\ tyd st b (s_data st) /\ match x with Some x => vt x = LNat | None => True end /\ vt m = LStream /\ tyd st c t
  | CIfLess x _ c1 c2 => vt x = LNat /\ tyd st c1 t /\ tyd st c2 t
  end.
Definition tyd_table (l : ctable) : Prop := Forall (fun q => tyd fresh_state (kbody (snd q)) (rho (fst q))) l.

(** ---------------- with the scopes ---------------- *)
Definition env_ok (V A : list name) (W : lenv) : Prop :=
  (forall x, In x V -> exists b, known x W = Some (vt x, b)) /\ (forall x, In x V -> In x A -> known x W = Some (vt x, true)).
Lemma name_eqb_eq x y : name_eqb x y = true <-> x = y.
Proof.
  destruct x, y; cbn; split; try discriminate; try congruence; rewrite ?andb_true_iff, ?Nat.eqb_eq;
    try (intros [-> ->]; reflexivity); try (intros ->; reflexivity); try (intros Q; injection Q; auto); intros Q; auto.
Qed.
Lemma known_one x k W y : known y ((x, k) :: W) = if name_eqb y x then Some k else known y W.
Proof. reflexivity. Qed.
Lemma env_declare V A W x t : env_ok V A W -> vt x = t -> env_ok (x :: V) (x :: A) (declare x t W).
Proof.
  intros [H1 H2] <-. split.
  - intros y Iy. unfold declare. rewrite known_one. destruct (name_eqb y x) eqn:Q; [apply name_eqb_eq in Q; subst; eauto|]. destruct Iy as [->|Iy]; [|apply H1, Iy].
    assert (name_eqb y y = true) by (apply name_eqb_eq; reflexivity). congruence.
  - intros y Iy Ay. unfold declare. rewrite known_one. destruct (name_eqb y x) eqn:Q; [apply name_eqb_eq in Q; subst; reflexivity|].
    assert (N : y <> x) by (intros ->; assert (name_eqb x x = true) by (apply name_eqb_eq; reflexivity); congruence).
    apply H2; [destruct Iy|destruct Ay]; congruence.
Qed.
Lemma env_declares xs us V A W : env_ok V A W -> vals th xs us -> env_ok (xs ++ V) (xs ++ A) (combine xs (map (fun u => (LVal u, true)) us) ++ W).
Proof. intros H F. induction F as [|x u xs us Q F IH]; [exact H|]. cbn. exact (env_declare IH Q). Qed.
Lemma env_is V A W x : env_ok V A W -> In x V -> is_a W x (vt x).
Proof. intros [H _] I0. destruct (H x I0) as (b & Q). exists b. exact Q. Qed.
Lemma env_assign V A W x : env_ok V A W -> In x V -> In x A -> assignable W x (vt x).
Proof. intros [_ H] I0 I1. exact (H x I0 I1). Qed.
Lemma env_gives V A W xs ts : env_ok V A W -> incl xs V -> vals th xs ts -> gives W xs (assemble ts).
Proof.
  intros H I0 F. exists ts. split; [|reflexivity]. induction F as [|x t xs ts Q F IH]; [constructor|]. constructor; [|apply IH; intros y Iy; apply I0; right; exact Iy].
  rewrite <- Q. apply (env_is H). apply I0. left. reflexivity.
Qed.
Lemma is_map V A W xs : env_ok V A W -> incl xs V -> Forall2 (is_a W) xs (map vt xs).
Proof. intros H I0. induction xs as [|x xs IH]; [constructor|]. cbn. constructor; [apply (env_is H), I0; left; reflexivity|apply IH; intros y Iy; apply I0; right; exact Iy]. Qed.
Lemma assign_map V A W xs : env_ok V A W -> incl xs V -> incl xs A -> Forall2 (assignable W) xs (map vt xs).
Proof.
  intros H I0 I1. induction xs as [|x xs IH]; [constructor|]. cbn. constructor; [apply (env_assign H); [apply I0|apply I1]; left; reflexivity|].
  apply IH; intros y Iy; [apply I0|apply I1]; right; exact Iy.
Qed.
Definition sig_of (q : nat * closure) : nat * ksig := (fst q, mkKsig (map vt (kmuts (snd q))) (map vt (kfrees (snd q))) (map vt (kmarks (snd q))) (rho (fst q))).

Lemma keys_unique (l : ctable) k a b : NoDup (map fst l) -> In (k, a) l -> In (k, b) l -> a = b.
Proof.
  induction l as [|[k' c] l IH]; intros ND I1 I2; [destruct I1|]. cbn in ND. inversion ND as [|? ? NI ND']; subst.
  destruct I1 as [I1|I1], I2 as [I2|I2]; [congruence| | |exact (IH ND' I1 I2)].
  - injection I1 as -> ->. destruct NI. apply in_map_iff. exists (k, b). auto.
  - injection I2 as -> ->. destruct NI. apply in_map_iff. exists (k, a). auto.
Qed.
Hypothesis ND : NoDup (map fst cl).
Lemma tyd_typed pre (Ipre : incl pre cl) : forall c V A W st t, tyd st c t -> scoped V A c = true -> calls_in pre c = true -> env_ok V A W ->
  forall B, no_rebind B c -> typed P (map sig_of pre) W st c t.
Proof.
  induction c; intros V A W st t T S C H B NR; cbn [tyd scoped calls_in no_rebind] in *;
    repeat match goal with
    | H : _ && _ = true |- _ => apply andb_true_iff in H; destruct H
    | H : mem _ _ = true |- _ => apply mem_In in H
    | H : subl _ _ = true |- _ => apply subl_incl in H
    | H : _ /\ _ |- _ => destruct H
    | H : exists _, _ |- _ => destruct H
    end; subst.
  - constructor. reflexivity.
  - constructor. eapply env_gives; eassumption.
  - constructor.
  - constructor; assumption.
  - apply existsb_exists in C. destruct C as ([k' clo] & I1 & Q). cbn [fst snd] in Q.
    repeat match goal with H : _ && _ = true |- _ => apply andb_true_iff in H; destruct H end.
    match goal with H : (k' =? k) = true |- _ => apply Nat.eqb_eq in H; subst k' end.
    match goal with H : In (k, mkClosure _ _ _ _) cl |- _ => pose proof (keys_unique ND (Ipre _ I1) H); subst clo end.
    eapply t_call with (sg := snd (sig_of (k, _))); [apply in_map_iff; eexists; split; [|exact I1]; reflexivity|reflexivity|assumption| | |]; cbn [sig_of snd g_muts g_frees g_marks kmuts kfrees kmarks].
    + eapply assign_map; eassumption.
    + eapply is_map; eassumption.
    + eapply is_map; eassumption.
  - constructor. eapply IHc; eauto using env_declare.
  - constructor. eapply IHc; eauto using env_declare.
  - constructor. eapply IHc; eauto using env_declare.
  - econstructor. eapply IHc; eauto using env_declare.
  - econstructor. eapply IHc; eauto using env_declare.
  - econstructor; [|eassumption|].
    + match goal with F : vals th args _, I1 : incl args V |- _ => clear - F I1 H; induction F as [|a u xs us Q F IH]; constructor;
        [rewrite <- Q; apply (env_is H), I1; left; reflexivity|apply IH; intros y Iy; apply I1; right; exact Iy] end.
    + eapply IHc; eauto using env_declare.
  - constructor; [|eapply IHc; eauto using env_declare]. match goal with Q : vt lo = LStream |- _ => rewrite <- Q end. eapply env_is; eassumption.
  - constructor; [|eapply IHc; eauto]. match goal with Q : vt b = LBool |- _ => rewrite <- Q end. eapply env_assign; eassumption.
  - econstructor; [|eapply env_gives; eassumption|eapply IHc; eauto]. match goal with Q : vt x = _ |- _ => rewrite <- Q end. eapply env_assign; eassumption.
  - econstructor; [|eapply env_gives; eassumption|eapply IHc; eauto]. match goal with Q : vt x = _ |- _ => rewrite <- Q end. eapply env_assign; eassumption.
  - destruct x as [x|]; repeat match goal with H : _ && _ = true |- _ => apply andb_true_iff in H; destruct H | H : _ /\ _ |- _ => destruct H end; constructor; eauto using env_declare.
  - constructor; eauto using env_declare.
  - constructor; eauto.
  - constructor; eauto.
  - constructor; eauto. match goal with Q : vt m = LStream |- _ => rewrite <- Q end. eapply env_is; eassumption.
  - constructor; eauto. match goal with Q : vt m = LStream |- _ => rewrite <- Q end. eapply env_is; eassumption.
  - destruct (in_choice c2) eqn:IC.
    + destruct T as (u & T1 & T2). eapply t_let; eauto.
    + destruct T as (T1 & T2 & T3). apply t_assign; eauto.
  - constructor; eauto. match goal with Q : vt m = LStream |- _ => rewrite <- Q end. eapply env_is; eassumption.
  - constructor; eauto. match goal with Q : vt b = LBool |- _ => rewrite <- Q end. eapply env_is; eassumption.
  - constructor; eauto. match goal with Q : vt m = LStream |- _ => rewrite <- Q end. eapply env_is; eassumption.
  - constructor; eauto.
  - econstructor; eauto using env_declares. match goal with F : vals th vars _ |- _ => clear - F; induction F; cbn; congruence end.
  - assert (is_mark : assignable W mark LStream).
    { match goal with Q : vt mark = LStream |- _ => rewrite <- Q end. eapply env_assign; eassumption. }
    apply t_loop; eauto. destruct counter as [k|]; [|exact I].
    repeat match goal with H : _ && _ = true |- _ => apply andb_true_iff in H; destruct H | H : mem _ _ = true |- _ => apply mem_In in H end.
    match goal with Q : vt k = LNat |- _ => rewrite <- Q end. eapply env_assign; eassumption.
  - constructor; eauto. match goal with Q : vt x = LNat |- _ => rewrite <- Q end. eapply env_is; eassumption.
Qed.

Lemma known_params (b : bool) xs x W : In x xs -> known x (combine xs (map (fun t => (t, b)) (map vt xs)) ++ W) = Some (vt x, b).
Proof.
  induction xs as [|y xs IH]; intros I0; [destruct I0|]. cbn [map combine app]. rewrite known_one. destruct (name_eqb x y) eqn:Q; [apply name_eqb_eq in Q; subst; reflexivity|].
  destruct I0 as [->|I0]; [|exact (IH I0)]. assert (name_eqb x x = true) by (apply name_eqb_eq; reflexivity). congruence.
Qed.
Lemma known_skip (b : bool) xs x W : ~ In x xs -> known x (combine xs (map (fun t => (t, b)) (map vt xs)) ++ W) = known x W.
Proof.
  induction xs as [|y xs IH]; intros N; [reflexivity|]. cbn [map combine app]. rewrite known_one. destruct (name_eqb x y) eqn:Q; [apply name_eqb_eq in Q; subst; destruct N; left; reflexivity|].
  apply IH. intros I0. apply N. right. exact I0.
Qed.
Lemma in_names (x : name) xs : In x xs \/ ~ In x xs.
Proof. destruct (mem x xs) eqn:Q; [left; apply mem_In; exact Q|right]. intros I0. apply mem_In in I0. congruence. Qed.
Lemma env_params ms fs ks : env_ok (ms ++ fs ++ ks) ms (combine ms (map (fun t => (t, true)) (map vt ms)) ++ combine fs (map (fun t => (t, false)) (map vt fs))
               ++ combine ks (map (fun t => (t, false)) (map vt ks))).
Proof.
  split.
  - intros x I0. destruct (in_names x ms) as [I1|N1]; [exists true; apply known_params, I1|]. rewrite (known_skip _ _ N1).
    destruct (in_names x fs) as [I2|N2]; [exists false; apply known_params, I2|]. rewrite (known_skip _ _ N2). exists false.
    rewrite <- (app_nil_r (combine ks _)). apply known_params. apply in_app_or in I0. destruct I0 as [I0|I0]; [destruct (N1 I0)|].
    apply in_app_or in I0. destruct I0 as [I0|I0]; [destruct (N2 I0)|exact I0].
  - intros x _ I1. apply known_params, I1.
Qed.
Lemma closures_are_typed post : forall pre, cl = pre ++ post -> table_ok cl -> tyd_table cl -> Forall (fun k => closure_no_rebind (snd k)) cl -> closures_typed P (map sig_of pre) post (map sig_of cl).
Proof.
  induction post as [|[k clo] post IH]; intros pre Q TO TT NR; [rewrite app_nil_r in Q; subst pre; constructor|].
  destruct (TO _ _ _ _ Q) as [S0 C0]. assert (IC : In (k, clo) cl) by (rewrite Q; apply in_or_app; right; left; reflexivity).
  pose proof TT as TT'. unfold tyd_table in TT'. rewrite Forall_forall in TT'. specialize (TT' _ IC). cbn [fst snd] in TT'.
  pose proof NR as NR'. rewrite Forall_forall in NR'. destruct (NR' _ IC) as [N1 N2]. cbn [snd] in N1, N2.
  eapply ct_cons with (sg := snd (sig_of (k, clo))); cbn [sig_of fst snd g_muts g_frees g_marks g_ret]; rewrite ?map_length; try reflexivity.
  - eapply tyd_typed; [|exact TT'|exact S0|exact C0|apply env_params|exact N2]. intros z Iz. rewrite Q. apply in_or_app. left. exact Iz.
  - exact N1.
  - intros I0. rewrite map_map in I0. pose proof ND as ND'. rewrite Q, map_app in ND'. cbn [map fst] in ND'. apply NoDup_remove_2 in ND'. apply ND'. apply in_or_app. left. exact I0.
  - assert (Q' : cl = (pre ++ [(k, clo)]) ++ post) by (rewrite <- app_assoc; exact Q). pose proof (IH _ Q' TO TT NR) as R. rewrite map_app in R. exact R.
Qed.
Lemma function_typed body t : tyd_table cl -> tyd fresh_state body t -> no_unbound_name (mkFunc cl body) -> func_no_rebind (mkFunc cl body) -> func_typed P (mkFunc cl body) t.
Proof.
  intros TT TB (TO & S0 & C0) (_ & NR & NB). exists (map sig_of cl). cbn [fclosures fbody] in *. split; [exact (@closures_are_typed cl [] eq_refl TO TT NR)|].
  eapply tyd_typed; [apply incl_refl|exact TB|exact S0|exact C0| |exact NB]. split; intros x [].
Qed.
End Fixed.

(** ---------------- a typed function has no unbound name ---------------- *)
Definition env_in (W : lenv) (V A : list name) : Prop := forall x t b, known x W = Some (t, b) -> In x V /\ (b = true -> In x A).
Lemma env_in_declare W V A x t : env_in W V A -> env_in (declare x t W) (x :: V) (x :: A).
Proof.
  intros H y u b K. unfold declare in K. rewrite known_one in K. destruct (name_eqb y x) eqn:Q; [apply name_eqb_eq in Q; subst; split; intros; left; reflexivity|].
  destruct (H _ _ _ K) as [H1 H2]. split; [right; exact H1|intros B; right; exact (H2 B)].
Qed.
Lemma env_in_declares xs : forall us W V A, env_in W V A -> env_in (combine xs (map (fun u => (LVal u, true)) us) ++ W) (xs ++ V) (xs ++ A).
Proof.
  induction xs as [|x xs IH]; intros us W V A H; [exact H|]. destruct us as [|u us]; cbn.
  - intros y t b K. destruct (H _ _ _ K) as [H1 H2]. split; [right; apply in_or_app; auto|intros B; right; apply in_or_app; auto].
  - exact (env_in_declare (IH us W V A H)).
Qed.
Lemma is_in W V A x t : env_in W V A -> is_a W x t -> mem x V = true.
Proof. intros H (b & K). apply mem_In. exact (proj1 (H _ _ _ K)). Qed.
Lemma assign_in W V A x t : env_in W V A -> assignable W x t -> mem x V = true /\ mem x A = true.
Proof. intros H K. destruct (H _ _ _ K) as [H1 H2]. split; apply mem_In; auto. Qed.
Lemma is_all W V A xs ts : env_in W V A -> Forall2 (is_a W) xs ts -> subl xs V = true.
Proof. intros H F. apply subl_incl. induction F as [|x t xs ts K F IH]; [intros y []|]. intros y [<-|Iy]; [apply mem_In; exact (is_in H K)|exact (IH y Iy)]. Qed.
Lemma assign_all W V A xs ts : env_in W V A -> Forall2 (assignable W) xs ts -> subl xs V = true /\ subl xs A = true.
Proof.
  intros H F. split; apply subl_incl; (induction F as [|x t xs ts K F IH]; [intros y []|]; destruct (assign_in H K) as [K1 K2]; intros y [<-|Iy]; [apply mem_In; assumption|exact (IH y Iy)]).
Qed.
Lemma gives_in W V A xs t : env_in W V A -> gives W xs t -> subl xs V = true.
Proof. intros H (ts & F & _). apply subl_incl. induction F as [|x u xs ts K F IH]; [intros y []|]. intros y [<-|Iy]; [apply mem_In; exact (is_in H K)|exact (IH y Iy)]. Qed.
(** The closures that are known. *)
Definition known_as (K : kenv) (L : ctable) : Prop := Forall2 (fun k q => fst k = fst q /\ length (g_muts (snd k)) = length (kmuts (snd q))
  /\ length (g_frees (snd k)) = length (kfrees (snd q)) /\ length (g_marks (snd k)) = length (kmarks (snd q))) K L.
Lemma known_snoc K L k sg clo : known_as K L -> length (g_muts sg) = length (kmuts clo) -> length (g_frees sg) = length (kfrees clo) -> length (g_marks sg) = length (kmarks clo) ->
  known_as (K ++ [(k, sg)]) (L ++ [(k, clo)]).
Proof. intros H L1 L2 L3. apply Forall2_app; [exact H|]. constructor; [cbn; auto|constructor]. Qed.
Lemma F2_len A B (R : A -> B -> Prop) l1 l2 : Forall2 R l1 l2 -> length l1 = length l2.
Proof. induction 1; cbn; congruence. Qed.
Lemma F2_in A B (R : A -> B -> Prop) l1 l2 a : Forall2 R l1 l2 -> In a l1 -> exists b, In b l2 /\ R a b.
Proof. induction 1 as [|x y l1 l2 H F IH]; intros I0; [destruct I0|]. destruct I0 as [->|I0]; [exists y; split; [left; reflexivity|exact H]|]. destruct (IH I0) as (b & I1 & H1). exists b. split; [right; exact I1|exact H1]. Qed.
Ltac env_ands := repeat (apply andb_true_iff; split); eauto using env_in_declare, env_in_declares, is_in, is_all, gives_in.
Lemma typed_scoped P K L : known_as K L -> forall W st c t, typed P K W st c t -> forall V A, env_in W V A -> scoped V A c = true /\ calls_in L c = true.
Proof.
  intros KA W st c t H. induction H; intros B A HE; cbn [scoped calls_in];
    repeat match goal with
    | IH : forall V A, env_in (declare ?x ?u ?W) V A -> _ |- _ => destruct (IH _ _ (env_in_declare (x := x) (t := u) HE)); clear IH
    | IH : forall V A, env_in (_ ++ _) V A -> _ |- _ => destruct (IH _ _ (env_in_declares HE)); clear IH
    | IH : forall V A, env_in _ V A -> _ |- _ => destruct (IH _ _ HE); clear IH
    | F : Forall2 (assignable _) _ _ |- _ => destruct (assign_all HE F); apply F2_len in F
    | F : Forall2 (is_a _) _ _ |- _ => pose proof (is_all HE F); apply F2_len in F
    | F : assignable _ _ _ |- _ => destruct (assign_in HE F); clear F
    | F : is_a _ _ _ |- _ => pose proof (is_in HE F); clear F
    | F : gives _ _ _ |- _ => pose proof (gives_in HE F); clear F
    end; intros; try (split; repeat (apply andb_true_iff; split); solve [assumption | reflexivity]).
  - (* call *) split; [repeat (apply andb_true_iff; split); assumption|]. apply existsb_exists.
    match goal with I0 : In (k, sg) K |- _ => destruct (F2_in KA I0) as (q & I1 & Q1 & Q2 & Q3 & Q4) end. exists q. cbn [fst snd] in *. split; [exact I1|].
    repeat (apply andb_true_iff; split); apply Nat.eqb_eq; congruence.
  - (* action *) match goal with F : Forall2 _ args _ |- _ => assert (subl args B = true) end.
    { apply subl_incl. intros a Ia. match goal with F : Forall2 _ args _ |- _ => destruct (F2_in F Ia) as (u & _ & Q) end. apply mem_In. exact (is_in HE Q). }
    split; repeat (apply andb_true_iff; split); assumption.
  - (* loop *) destruct x as [x|]; [match goal with F : assignable _ _ _ |- _ => destruct (assign_in HE F); clear F end|];
      split; repeat (apply andb_true_iff; split); solve [assumption | reflexivity].
Qed.
Lemma env_in_nil : env_in [] [] [].
Proof. intros x t b K. discriminate K. Qed.
Lemma env_in_params (b : bool) ks : forall (ts : list lty) W V A, env_in W V A -> env_in (combine ks (map (fun t => (t, b)) ts) ++ W) (ks ++ V) ((if b then ks else []) ++ A).
Proof.
  induction ks as [|x ks IH]; intros ts W V A H; [destruct b; exact H|]. destruct ts as [|t ts]; cbn [map combine app].
  - intros y u b' K. destruct (H _ _ _ K) as [H1 H2]. split; [right; apply in_or_app; auto|]. intros Q. apply in_or_app. auto.
  - intros y u b' K. rewrite known_one in K. destruct (name_eqb y x) eqn:Q.
    + apply name_eqb_eq in Q. subst y. injection K as <- <-. split; [left; reflexivity|]. intros ->. left. reflexivity.
    + destruct (IH ts W V A H _ _ _ K) as [H1 H2]. split; [right; exact H1|]. intros B. specialize (H2 B). destruct b; [right|]; exact H2.
Qed.
Lemma typed_table_ok P : forall K l K', closures_typed P K l K' -> forall pre, known_as K pre -> table_ok pre -> known_as K' (pre ++ l) /\ table_ok (pre ++ l).
Proof.
  induction 1 as [K|K k clo l sg K' L1 L2 L3 T _ N _ IH]; intros pre KA TO; [rewrite app_nil_r; auto|].
  assert (Q : pre ++ (k, clo) :: l = (pre ++ [(k, clo)]) ++ l) by (rewrite <- app_assoc; reflexivity). rewrite Q. apply IH; [apply known_snoc; assumption|].
  destruct (typed_scoped KA T (V := kmuts clo ++ kfrees clo ++ kmarks clo) (A := kmuts clo)) as [S0 C0].
  { pose proof (env_in_params (b := true) (ks := kmuts clo) (ts := g_muts sg) (env_in_params (b := false) (ks := kfrees clo) (ts := g_frees sg) (env_in_params (b := false) (ks := kmarks clo) (ts := g_marks sg) env_in_nil))) as R.
    cbn [app] in R. rewrite !app_nil_r in R. exact R. }
  apply table_ok_snoc; [exact TO|exact S0|exact C0].
Qed.
Theorem typed_no_unbound P f t : func_typed P f t -> no_unbound_name f.
Proof.
  intros (K & CT & T). destruct (typed_table_ok CT (pre := []) ltac:(constructor) table_ok_nil) as [KA TO]. cbn [app] in *.
  destruct (typed_scoped KA T env_in_nil) as [S0 C0]. repeat split; try assumption; apply (TO _ _ _ _ H).
Qed.

(** ---------------- collecting the types of the new names ---------------- *)
Definition keyed (B : Type) (D : list (nat * B)) (a b : nat) : Prop := Forall (fun d => a <= fst d < b) D /\ NoDup (map fst D).
Lemma keyed_nil B a b : keyed (@nil (nat * B)) a b.
Proof. split; constructor. Qed.
Lemma keyed_one B u (v : B) a b : a <= u < b -> keyed [(u, v)] a b.
Proof. intros H. split; [constructor; [exact H|constructor]|]. cbn. constructor; [intros []|constructor]. Qed.
Lemma NoDup_app_keys (l1 l2 : list nat) a : NoDup l1 -> NoDup l2 -> Forall (fun d => d < a) l1 -> Forall (fun d => a <= d) l2 -> NoDup (l1 ++ l2).
Proof.
  intros N1 N2 F1 F2. induction N1 as [|x l1 NI N1 IH]; [exact N2|]. inversion F1 as [|? ? Hx F1']; subst. cbn. constructor; [|exact (IH F1')].
  intros I0. apply in_app_or in I0. destruct I0 as [I0|I0]; [exact (NI I0)|]. rewrite Forall_forall in F2. specialize (F2 _ I0). lia.
Qed.
Lemma keyed_app B (D1 D2 : list (nat * B)) a b c : a <= b -> b <= c -> keyed D1 a b -> keyed D2 b c -> keyed (D1 ++ D2) a c.
Proof.
  intros L1 L2 [F1 N1] [F2 N2]. split.
  - apply Forall_app. split; [eapply Forall_impl; [|exact F1]|eapply Forall_impl; [|exact F2]]; cbn; intros; lia.
  - rewrite map_app. apply NoDup_app_keys with (a := b); try assumption; apply Forall_map; (eapply Forall_impl; [|eassumption]); cbn; intros; lia.
Qed.
Lemma keyed_wide B (D : list (nat * B)) a b a' b' : a' <= a -> b <= b' -> keyed D a b -> keyed D a' b'.
Proof. intros L1 L2 [F N]. split; [|exact N]. eapply Forall_impl; [|exact F]. cbn. intros; lia. Qed.
Definition th_sat (th : nat -> nat -> tsh) (D : list (nat * list tsh)) : Prop := forall u l j t, In (u, l) D -> nth_error l j = Some t -> th u j = t.
Definition rho_sat (rho : nat -> tsh) (E : list (nat * tsh)) : Prop := forall k t, In (k, t) E -> rho k = t.

(** Whatever the types of the names up to [x] are, those of the names made between [x] and [y] can be chosen for [Q] to hold. *)
Definition good (x y : ctx) (Q : (nat -> nat -> tsh) -> (nat -> tsh) -> ctable -> Prop) : Prop :=
  exists D E, keyed D (prefix_uid x) (prefix_uid y) /\ keyed E (S (closure_uid x)) (S (closure_uid y)) /\
    forall th rho cl, th_sat th D -> rho_sat rho E -> Q th rho cl.
Lemma good_any x y (Q : _ -> _ -> _ -> Prop) : (forall th rho cl, Q th rho cl) -> good x y Q.
Proof. intros H. exists [], []. split; [apply keyed_nil|]. split; [apply keyed_nil|]. auto. Qed.
Lemma good_impl x y (Q R : _ -> _ -> _ -> Prop) : (forall th rho cl, Q th rho cl -> R th rho cl) -> good x y Q -> good x y R.
Proof. intros H (D & E & K1 & K2 & K). exists D, E. split; [exact K1|]. split; [exact K2|]. auto. Qed.
Lemma good_wide x y x' y' (Q : _ -> _ -> _ -> Prop) : ctx_le x' x -> ctx_le y y' -> good x y Q -> good x' y' Q.
Proof. intros [] [] (D & E & K1 & K2 & K). exists D, E. split; [eapply keyed_wide; [| |exact K1]; lia|]. split; [eapply keyed_wide; [| |exact K2]; lia|]. exact K. Qed.
Lemma good_and x y z (Q R : _ -> _ -> _ -> Prop) : ctx_le x y -> ctx_le y z -> good x y Q -> good y z R -> good x z (fun th rho cl => Q th rho cl /\ R th rho cl).
Proof.
  intros [] [] (D & E & K1 & K2 & K) (D' & E' & K1' & K2' & K'). exists (D ++ D'), (E ++ E').
  split; [eapply keyed_app; [| |exact K1|exact K1']; lia|]. split; [eapply keyed_app; [| |exact K2|exact K2']; lia|].
  intros th rho cl H1 H2. split; [apply K|apply K']; intros ? **; (eapply H1 || eapply H2); try eassumption; apply in_or_app; auto.
Qed.
Lemma good_var x y u ts : prefix_uid x <= u < prefix_uid y -> good x y (fun th _ _ => vals th (map (NVar u) (seq 0 (length ts))) ts).
Proof.
  intros L. exists [(u, ts)], []. split; [apply keyed_one, L|]. split; [apply keyed_nil|]. intros th rho cl H _.
  assert (G : forall k l, (forall j t, nth_error l j = Some t -> th u (k + j) = t) -> vals th (map (NVar u) (seq k (length l))) l).
  { intros k l. revert k. induction l as [|t l IH]; intros k Hl; [constructor|]. cbn. constructor.
    - cbn. f_equal. rewrite <- (Hl 0 t eq_refl). f_equal. lia.
    - apply IH. intros j t' Q. rewrite <- (Hl (S j) t' Q). f_equal. lia. }
  apply G. intros j t Q. exact (H u ts j t (or_introl eq_refl) Q).
Qed.
Lemma good_ret x y k t : closure_uid x < k <= closure_uid y -> good x y (fun _ rho _ => rho k = t).
Proof.
  intros L. exists [], [(k, t)]. split; [apply keyed_nil|]. split; [apply keyed_one; lia|]. intros th rho cl _ H. apply H. left. reflexivity.
Qed.

(** ---------------- the types of the expressions ---------------- *)
Section Gen.
Variable G : grammar.
Variable P : decls.
(** The types of the values of an expression. *)
Variable co : nat -> list tsh.
Definition coty (i : nat) (e : expr) : Prop :=
  match e with
  | EStr _ | ENot _ | EAnd _ => False
  | EAny | EClass _ => co i = [SChar]
  | EStar e | EPlus e => co i = [SVec (assemble (co e))]
  | EOpt e => co i = [SOpt (assemble (co e))]
  | EAct e _ f => co i = [SRust] /\ (unit_variant f (is_unit G e) = false -> d_act P f (co e))
  | EExt p => co i = [SRust] /\ P Par (Foreign p) SRust
  | ENT id => P Par (Local id) (assemble (co i))
  | ESeq l => co i = flat_map co l
  | EAlt l => Forall (fun j => co j = co i) l
  | EAsc e _ => co e = co i
  | ESpan e | ERange e => co i = SRust :: co e
  end.
Definition recty (e : expr) : Prop := match e with ENT id => P Rec (Local id) SUnit | EExt p => P Rec (Foreign p) SUnit | _ => True end.
Hypothesis CL : forall i, length (co i) = card G i.
Hypothesis CR : forall i e, expr_of G i = Some e -> recty e.
(** The expressions whose value is asked for. *)
Variable R : nat -> Prop.
Definition cotym (m : mode) : Prop :=
  match m with Rec => True | Par => forall i e, R i -> expr_of G i = Some e -> is_unit G i = false -> coty i e /\ Forall R (children e) end.
Definition inm (m : mode) (i : nat) : Prop := match m with Rec => True | Par => R i end.
Definition cm (m : mode) (i : nat) : list tsh := match m with Rec => [] | Par => co i end.
Lemma cm_len m i : length (cm m i) = ncard G m i.
Proof. destruct m; [reflexivity|apply CL]. Qed.
Local Notation tyd := (tyd P).
Local Notation tyd_table := (tyd_table P).

Definition takes (m : mode) (i : nat) (s : code) (x : ctx) (c : code) (y : ctx) (t : tsh) (th : nat -> nat -> tsh) (rho : nat -> tsh) (cl : ctable) : Prop :=
  incl (closures y) cl -> (forall xs, frees x = frees y ++ xs -> vals th xs (cm m i)) -> tyd th rho cl fresh_state s t -> tyd_table th rho cl (closures x) ->
  tyd th rho cl fresh_state c t /\ tyd_table th rho cl (closures y).
Definition types_ih (comp : nat -> code -> ctx -> cres (code * ctx)) (m : mode) : Prop :=
  forall i s x c y t, inm m i -> comp i s x = COk (c, y) -> good x y (takes m i s x c y t).

Lemma vals_app th xs ys ts us : vals th (xs ++ ys) (ts ++ us) -> length xs = length ts -> vals th xs ts /\ vals th ys us.
Proof.
  revert ts. induction xs as [|x xs IH]; intros [|t ts] H L; try discriminate L; [split; [constructor|exact H]|]. cbn in H. inversion H as [|? ? ? ? Q F]; subst.
  destruct (IH ts F ltac:(cbn in L; lia)) as [H1 H2]. split; [constructor; assumption|exact H2].
Qed.
Lemma le_incl x y cl : ctx_le x y -> incl (closures y) cl -> incl (closures x) cl.
Proof. intros [] H z Iz. destruct le_table as (new & Q & _). apply H. rewrite Q. apply in_or_app. left. exact Iz. Qed.

Lemma seq_types comp m : shape_ih G comp m -> types_ih comp m ->
  forall l s x c y t, Forall (inm m) l -> compile_seq comp l s x = COk (c, y) -> good x y (fun th rho cl => incl (closures y) cl ->
    (forall xs, frees x = frees y ++ xs -> vals th xs (flat_map (cm m) l)) -> tyd th rho cl fresh_state s t -> tyd_table th rho cl (closures x) ->
    tyd th rho cl fresh_state c t /\ tyd_table th rho cl (closures y)).
Proof.
  intros HS HT. induction l as [|i l IH]; intros s x c y t HI H.
  - cbn [compile_seq] in H. apply COk_inj, pair_inj in H. destruct H as [<- <-]. apply good_any. auto.
  - cbn [compile_seq] in H. apply cbind_ok in H. destruct H as ([s1 x1] & E1 & H).
    apply cbind_ok in H. destruct H as ([c2 x2] & E2 & H). apply COk_inj, pair_inj in H. destruct H as [<- <-].
    pose proof (compile_seq_shape HS E1) as Sh1. pose proof (HS _ _ _ _ _ E2) as Sh2.
    pose proof (good_and (sh_le Sh1) (sh_le Sh2) (IH _ _ _ _ t (Forall_inv_tail HI) E1) (HT _ _ _ _ _ t (Forall_inv HI) E2)) as GD.
    eapply good_wide; [apply ctx_le_refl|apply with_ncomb_le|]. eapply good_impl; [|exact GD]. intros th rho cl [Q1 Q2] Ic F T TT. cbn [closures frees with_ncomb] in *.
    destruct (sh_frees Sh1) as (ys & Fy & Ly). destruct (sh_frees Sh2) as (zs & Fz & Lz).
    assert (Q : vals th (zs ++ ys) (cm m i ++ flat_map (cm m) l)) by (apply F; rewrite Fy, Fz, app_assoc; reflexivity).
    destruct (vals_app Q) as [V1 V2]; [rewrite cm_len; exact Lz|].
    destruct Q1 as [T1 TT1]; [eapply le_incl; [apply (sh_le Sh2)|exact Ic]|intros xs Fx; rewrite Fy in Fx; apply app_inv_head in Fx; subst xs; exact V2|exact T|exact TT|].
    apply Q2; [exact Ic|intros xs Fx; rewrite Fz in Fx; apply app_inv_head in Fx; subst xs; exact V1|exact T1|exact TT1].
Qed.

Lemma branches_types comp m i0 : shape_ih G comp m -> types_ih comp m ->
  forall l sc k s x bs y t, Forall (inm m) l -> compile_branches comp sc (NBranch k) s l x = COk (bs, y) ->
    Forall (fun j => cm m j = cm m i0) l -> good x y (fun th rho cl => incl (closures y) cl ->
    (forall xs, sc_frees sc = frees y ++ xs -> vals th xs (cm m i0)) -> tyd th rho cl fresh_state s t -> tyd_table th rho cl (closures x) ->
    Forall (fun b => tyd th rho cl fresh_state b t) bs /\ tyd_table th rho cl (closures y)).
Proof.
  intros HS HT. induction l as [|i l IH]; intros sc k s x bs y t HI H HF; [discriminate|]. inversion HF as [|? ? Hi HF']; subst.
  assert (HN : Forall (fun j => ncard G m j = ncard G m i0) (i :: l)).
  { eapply Forall_impl; [|exact HF]. cbn. intros j Q. rewrite <- !cm_len, Q. reflexivity. }
  destruct l as [|j l].
  - cbn [compile_branches] in H. apply cbind_ok in H. destruct H as (x1 & Ep & H). apply pop_mut_ok in Ep. destruct Ep as [_ ->].
    apply cbind_ok in H. destruct H as ([c y'] & Ec & H). apply COk_inj, pair_inj in H. destruct H as [<- ->].
    eapply good_wide; [|apply ctx_le_refl|].
    + eapply ctx_le_trans; [apply restore_scope_le|apply with_muts_le].
    + eapply good_impl; [|exact (HT _ _ _ _ _ t (Forall_inv HI) Ec)]. intros th rho cl Q Ic F T TT.
      destruct Q as [T1 TT1]; [exact Ic|intros xs Fx; rewrite Hi; apply F; exact Fx|exact T|exact TT|]. split; [constructor; [exact T1|constructor]|exact TT1].
  - remember (j :: l) as jl eqn:Ejl. cbn [compile_branches] in H. rewrite Ejl in H. rewrite <- Ejl in H.
    apply cbind_ok in H. destruct H as ([c x1] & Ec & H). apply cbind_ok in H. destruct H as ([cs y'] & Es & H).
    apply COk_inj, pair_inj in H. destruct H as [<- ->]. inversion HN as [|? ? Hn HN']; subst.
    pose proof (HS _ _ _ _ _ Ec) as Sh. pose proof (compile_branches_shape HS HN' Es) as (L2 & _ & _ & ys & Fy & Ly).
    assert (L1 : ctx_le x x1) by (eapply ctx_le_trans; [apply restore_scope_le|apply (sh_le Sh)]).
    assert (L2' : ctx_le x1 y) by (eapply ctx_le_trans; [apply with_ncomb_le|exact L2]).
    pose proof (IH sc k s _ _ _ t (Forall_inv_tail HI) Es HF') as G2. pose proof (HT _ _ _ _ _ t (Forall_inv HI) Ec) as G1.
    eapply (good_wide (x' := x) (y' := x1)) in G1; [|apply restore_scope_le|apply ctx_le_refl].
    eapply (good_wide (x' := x1) (y' := y)) in G2; [|apply with_ncomb_le|apply ctx_le_refl].
    eapply good_impl; [|exact (good_and L1 L2' G1 G2)]. intros th rho cl [Q1 Q2] Ic F T TT.
    destruct (sh_frees Sh) as (zs & Fz & Lz). cbn [frees restore_scope with_ncomb with_muts with_frees] in Fz.
    assert (EQ : frees x1 = frees y /\ zs = ys).
    { rewrite Fy in Fz. assert (LL : length (frees y) = length (frees x1)) by (apply (f_equal (@length _)) in Fz; rewrite !app_length in Fz; lia).
      clear - Fz LL. revert LL Fz. generalize (frees x1). generalize (frees y). induction l as [|a l IHl]; intros [|b r] LL Q; try discriminate LL; [auto|].
      cbn in Q. injection Q as -> Q. destruct (IHl r ltac:(cbn in LL; lia) Q) as [-> ->]. auto. }
    destruct EQ as [EF ->].
    destruct Q1 as [T1 TT1]; [eapply le_incl; [exact L2'|exact Ic]| |cbn; split; [reflexivity|exact T]|exact TT|].
    { intros xs Fx. cbn [frees restore_scope with_ncomb with_muts with_frees] in Fx. rewrite EF in Fx. rewrite Hi. exact (F xs Fx). }
    destruct Q2 as [T2 TT2]; [exact Ic|exact F|exact T|exact TT1|]. split; [constructor; assumption|exact TT2].
Qed.

Lemma choice_types th rho cl t k n : forall r, Forall (fun b => tyd th rho cl fresh_state b t) r ->
  tyd th rho cl (mkSty false t) (choice_code (NBranch k) (NMark n) r) t /\ in_choice (choice_code (NBranch k) (NMark n) r) = true.
Proof.
  induction 1 as [|b r H F IH]; cbn; [auto|]. destruct IH as [I1 I2]. rewrite I2. split; [|reflexivity]. split; [reflexivity|]. split; [|reflexivity].
  split; [reflexivity|]. exists t. auto.
Qed.
(** Options and repetitions. *)
Lemma optional_types th rho cl s body x c y t : optional_code s body x = (c, y) ->
  tyd th rho cl fresh_state s t -> tyd th rho cl fresh_state body SUnit -> tyd th rho cl fresh_state c t /\ closures y = closures x.
Proof.
  unfold optional_code. cbn. intros H T B. apply pair_inj in H. destruct H as [<- <-]. cbn. auto 10.
Qed.
Lemma repeat_types th rho cl n s body x c y t : repeat_code n s CFailure body x = (c, y) ->
  tyd th rho cl fresh_state s t -> tyd th rho cl fresh_state body SUnit -> tyd th rho cl fresh_state c t /\ closures y = closures x.
Proof.
  unfold repeat_code. cbn [next_mark next_counter]. intros H T B. destruct (0 <? n); apply pair_inj in H; destruct H as [<- <-]; cbn; auto 20.
Qed.

(** The body of an option or of a repetition that builds a value. *)
Lemma scope_types fuel e x r x1 sc x2 (st : name -> list name -> code) body x4 x5 :
  types_ih (compile G fuel Par) Par -> coherent G -> R e ->
  next_free_var x = COk (r, x1) -> open_scope (card G e) x1 = (sc, x2) ->
  compile G fuel Par e (st r (frees (push_mut r x2))) (push_mut r x2) = COk (body, x4) ->
  close_scope sc (with_ncomb x4 (S (ncomb x4))) = COk x5 ->
  ctx_le x x5 /\ frees x = frees x5 ++ [r] /\
  good x x5 (fun th rho cl => incl (closures x5) cl -> (vals th (frees (push_mut r x2)) (co e) -> tyd th rho cl fresh_state (st r (frees (push_mut r x2))) SUnit) ->
    tyd_table th rho cl (closures x) -> tyd th rho cl fresh_state body SUnit /\ tyd_table th rho cl (closures x5)).
Proof.
  intros IH HC HI Er Eo Ec Ex. apply next_free_var_ok in Er. destruct Er as [F E1].
  pose proof (compile_shape (m := Par) HC Ec) as Sh. apply close_scope_ok in Ex. destruct Ex as [Fy Ex]. cbn [frees with_ncomb] in Fy.
  apply pair_inj in Eo. destruct Eo as [Es E2].
  assert (T3 : closures (push_mut r x2) = closures x) by (rewrite <- E2, E1; reflexivity).
  assert (F3 : frees (push_mut r x2) = map (NVar (prefix_uid x)) (seq 0 (card G e))) by (rewrite <- E2, E1; reflexivity).
  assert (L3 : ctx_le x (push_mut r x2)).
  { eapply ctx_le_trans; [|apply with_muts_le]. pose proof (open_scope_le (card G e) x1) as Lo. unfold open_scope, fresh_vars in Lo. cbn [snd] in Lo. rewrite E2 in Lo.
    eapply ctx_le_trans; [|exact Lo]. rewrite E1. apply with_frees_le. }
  assert (U3 : prefix_uid (push_mut r x2) = S (prefix_uid x)) by (rewrite <- E2, E1; reflexivity).
  assert (L5 : ctx_le x4 x5) by (rewrite Ex; eapply ctx_le_trans; [apply with_ncomb_le|apply restore_scope_le]).
  split; [eapply ctx_le_trans; [exact L3|]; eapply ctx_le_trans; [apply (sh_le Sh)|exact L5]|].
  split; [rewrite Ex, <- Es; exact F|].
  pose proof (good_var (x := x) (y := push_mut r x2) (u := prefix_uid x) (co e) ltac:(lia)) as G1.
  pose proof (good_wide (ctx_le_refl _) L5 (IH _ _ _ _ _ SUnit HI Ec)) as G2.
  eapply good_impl; [|exact (good_and L3 (ctx_le_trans (sh_le Sh) L5) G1 G2)]. intros th rho cl [Q1 Q2] Ic T TT. rewrite CL, <- F3 in Q1.
  assert (C5 : closures x5 = closures x4) by (rewrite Ex; reflexivity). rewrite C5 in *.
  apply Q2; [exact Ic|intros xs Fx; rewrite Fy in Fx; cbn [app] in Fx; subst xs; exact Q1|exact (T Q1)|rewrite T3; exact TT].
Qed.
(** The body of a recogniser, followed by nothing. *)
Lemma body_types fuel e x body x1 : types_ih (compile G fuel Rec) Rec -> compile G fuel Rec e CState x = COk (body, x1) ->
  ctx_le x x1 /\ frees x1 = frees x /\
  good x x1 (fun th rho cl => incl (closures x1) cl -> tyd_table th rho cl (closures x) -> tyd th rho cl fresh_state body SUnit /\ tyd_table th rho cl (closures x1)).
Proof.
  intros IH E. pose proof (compile_shape (m := Rec) I E) as Sh. destruct (sh_frees Sh) as (xs & Fx & Lx). destruct xs; [|discriminate]. rewrite app_nil_r in Fx.
  split; [apply (sh_le Sh)|]. split; [congruence|]. eapply good_impl; [|exact (IH _ _ _ _ _ SUnit I E)]. intros th rho cl Q Ic TT.
  apply Q; [exact Ic| |reflexivity|exact TT]. intros xs Q'. rewrite Fx in Q'. assert (xs = []) as ->; [|constructor].
  apply (f_equal (@length _)) in Q'. rewrite app_length in Q'. destruct xs; [reflexivity|cbn in Q'; lia].
Qed.
(** [..e] and [...e]. *)
Lemma span_types fuel (rg : bool) i e x lo x1 r x2 s c x3 t :
  types_ih (compile G fuel Par) Par -> coherent G -> R e -> co i = SRust :: co e ->
  next_mark x = (lo, x1) -> next_free_var_skip (card G e) x1 = COk (r, x2) ->
  compile G fuel Par e (CLetSpan r rg lo s) (push_mark lo x2) = COk (c, x3) ->
  good x (pop_mark (with_ncomb x3 (S (ncomb x3)))) (takes Par i s x (CLetMark lo c) (pop_mark (with_ncomb x3 (S (ncomb x3)))) t).
Proof.
  intros IH HC HR HI Em Er Ec. pose proof (compile_shape (m := Par) HC Ec) as Sh. apply pair_inj in Em. destruct Em as [Elo E1].
  apply next_free_var_skip_ok in Er. destruct Er as (a & b & Fr & Lb & E2).
  assert (F1 : frees x = a ++ [r] ++ b) by (rewrite <- Fr, <- E1; reflexivity).
  assert (F2 : frees (push_mark lo x2) = a ++ b) by (rewrite E2; reflexivity).
  assert (T2 : closures (push_mark lo x2) = closures x) by (rewrite E2, <- E1; reflexivity).
  assert (L2 : ctx_le x (push_mark lo x2)).
  { eapply ctx_le_trans; [|apply with_marks_le]. rewrite E2. eapply ctx_le_trans; [|apply with_frees_le]. rewrite <- E1. exact (fresh_mark_le x). }
  eapply good_wide; [exact L2|eapply ctx_le_trans; [apply with_ncomb_le|apply with_marks_le]|]. eapply good_impl; [|exact (IH _ _ _ _ _ t HR Ec)].
  intros th rho cl Q Ic F T TT. cbn [closures pop_mark with_marks with_ncomb frees] in *.
  destruct (sh_frees Sh) as (xs & Fx & Lx). rewrite F2 in Fx. cbn [ncard] in Lx.
  assert (EQ : a = frees x3 /\ b = xs).
  { assert (LL : length a = length (frees x3)) by (apply (f_equal (@length _)) in Fx; rewrite !app_length in Fx; lia).
    clear - Fx LL. revert LL Fx. generalize (frees x3). induction a as [|z a IHa]; intros [|z' l'] LL Q; try discriminate LL; [auto|].
    cbn in Q. injection Q as -> Q. destruct (IHa l' ltac:(cbn in LL; lia) Q) as [-> ->]. auto. }
  destruct EQ as [-> ->]. assert (V : vals th (r :: xs) (co i)) by (apply F; rewrite F1; reflexivity). rewrite HI in V. inversion V as [|? ? ? ? V1 V2]; subst.
  destruct Q as [T1 TT1]; [exact Ic|intros ys Fy; rewrite F2 in Fy; apply app_inv_head in Fy; subst ys; exact V2|cbn; auto|rewrite T2; exact TT|].
  cbn. auto.
Qed.

Theorem compile_types fuel : forall m, cohm G m -> cotym m -> types_ih (compile G fuel m) m.
Proof.
  induction fuel as [|fuel IH]; intros m0 HC HT i s x c y t HI H; [discriminate|].
  cbn [compile] in H. apply cbind_ok in H. destruct H as (m & Em & H).
  assert (HM : cohm G m) by (destruct m; [exact I|destruct (eff_par Em) as [-> _]; exact HC]).
  assert (HTM : cotym m) by (destruct m; [exact I|destruct (eff_par Em) as [-> _]; exact HT]).
  assert (Q0 : cm m0 i = cm m i). { pose proof (ncard_eff Em) as Q. rewrite <- !cm_len in Q. destruct m0, m; try reflexivity; cbn [cm length] in *; [|destruct (co i); [reflexivity|discriminate Q]]. destruct (eff_par Em); discriminate. }
  unfold takes. rewrite Q0. clear Q0.
  destruct (expr_of G i) as [e|] eqn:Ee; [|discriminate].
  assert (HE : m = Par -> coty i e).
  { intros ->. destruct (eff_par Em) as [-> Hu']. exact (proj1 (HT i e HI Ee Hu')). }
  assert (HK : Forall (inm m) (children e)).
  { destruct m; [apply Forall_forall; intros; exact I|]. destruct (eff_par Em) as [-> Hu']. exact (proj2 (HT i e HI Ee Hu')). }
  assert (HEc : m = Par -> coh_expr G i e).
  { intros ->. destruct (eff_par Em) as [-> Hu']. exact (HC i e Ee Hu'). }
  pose proof (CR Ee) as HR.
  assert (HSh : shape_ih G (compile G fuel m) m) by (intros ? ? ? ? ? K; eapply compile_shape; eassumption).
  assert (IHm : types_ih (compile G fuel m) m) by (apply IH; assumption).
  assert (IHr : types_ih (compile G fuel Rec) Rec) by (apply IH; exact I).
  clear Em.
  destruct e as [lit| |cls|id|p|l|l|e|e|e|e|e|e bx f|e t0|e|e].
  - apply COk_inj, pair_inj in H. destruct H as [<- <-]. apply good_any. intros th rho cl _ _ T TT. cbn. auto 10.
  - destruct m.
    + apply COk_inj, pair_inj in H. destruct H as [<- <-]. apply good_any. intros th rho cl _ _ T TT. cbn. auto 10.
    + apply cbind_ok in H. destruct H as ([v x1] & E & H). apply COk_inj, pair_inj in H. destruct H as [<- <-].
      apply next_free_var_ok in E. destruct E as [F ->]. apply good_any. intros th rho cl _ V T TT. cbn [frees with_frees closures] in *.
      specialize (V [v] F). cbn [cm] in V. rewrite (HE eq_refl) in V. inversion V; subst. cbn. auto 10.
  - apply cbind_ok in H. destruct H as ([v x1] & E & H). apply cbind_ok in H. destruct H as (k & _ & H).
    apply COk_inj, pair_inj in H. destruct H as [<- <-]. apply good_any. intros th rho cl _ V T TT. cbn [frees closures next_mark snd] in *.
    assert (X : closures x1 = closures x /\ var_ty th v = LVal SChar).
    { destruct m.
      - apply COk_inj, pair_inj in E. destruct E as [<- <-]. split; reflexivity.
      - apply next_free_var_ok in E. destruct E as [F E]. split; [rewrite E; reflexivity|]. specialize (V [v] F). cbn [cm] in V. rewrite (HE eq_refl) in V. inversion V; subst. assumption. }
    destruct X as [X1 X2]. rewrite X1. cbn. auto 15.
  - destruct m.
    + apply COk_inj, pair_inj in H. destruct H as [<- <-]. apply good_any. intros th rho cl _ _ T TT. cbn. cbn in HR. auto 10.
    + apply cbind_ok in H. destruct H as ([vs x1] & E & H). apply COk_inj, pair_inj in H. destruct H as [<- <-].
      apply pop_vars_ok in E. destruct E as (F & _ & E). apply good_any. intros th rho cl _ V T TT. specialize (V vs F). cbn [cm] in V. pose proof (HE eq_refl) as HP. cbn [coty] in HP.
      rewrite E. cbn. split; [|exact TT]. split; [eauto|]. auto 10.
  - destruct m.
    + apply COk_inj, pair_inj in H. destruct H as [<- <-]. apply good_any. intros th rho cl _ _ T TT. cbn. cbn in HR. auto 10.
    + apply cbind_ok in H. destruct H as ([vs x1] & E & H). apply COk_inj, pair_inj in H. destruct H as [<- <-].
      apply pop_vars_ok in E. destruct E as (F & _ & E). apply good_any. intros th rho cl _ V T TT. specialize (V vs F). cbn [cm] in V. destruct (HE eq_refl) as [HP HX].
      rewrite HP in V. rewrite E. cbn. split; [|exact TT]. split; [exists [SRust]; split; [exact HX|exact V]|]. auto 10.
  - (* sequence *) assert (Q : cm m i = flat_map (cm m) l).
    { destruct m; [cbn; clear; induction l; [reflexivity|cbn; assumption]|exact (HE eq_refl)]. }
    rewrite Q. exact (@seq_types _ m HSh IHm l s x c y t HK H).
  - (* choice *)
    destruct (success_as_closure s x) as [s1 x1] eqn:Es.
    apply cbind_ok in H. destruct H as ([bs y'] & E & H). destruct bs as [|b r]; [discriminate|].
    apply COk_inj, pair_inj in H. destruct H as [<- <-].
    assert (HF : Forall (fun j => cm m j = cm m i) l).
    { destruct m; [apply Forall_forall; reflexivity|exact (HE eq_refl)]. }
    assert (HN : Forall (fun j => ncard G m j = ncard G m i) l).
    { eapply Forall_impl; [|exact HF]. cbn. intros j Q. rewrite <- !cm_len, Q. reflexivity. }
    pose proof (compile_branches_shape HSh HN E) as (L2 & _).
    pose proof (@branches_types _ m i HSh IHm l _ _ _ _ _ _ t HK E HF) as G2.
    pose proof (success_as_closure_le s x) as L1. rewrite Es in L1. cbn [snd] in L1.
    assert (G1 : good x x1 (fun th rho cl => incl (closures x1) cl -> tyd th rho cl fresh_state s t -> tyd_table th rho cl (closures x) ->
      tyd th rho cl fresh_state s1 t /\ tyd_table th rho cl (closures x1))).
    { unfold success_as_closure in Es. destruct (0 <? ncomb x); apply pair_inj in Es; destruct Es as [<- <-].
      - eapply good_impl; [|refine (good_ret (k := S (closure_uid x)) t _); cbn [closure_uid]; lia].
        intros th rho cl Q Ic T TT. cbn [closures] in *. split.
        + cbn. split; [exists s; apply Ic, in_or_app; right; left; reflexivity|auto].
        + apply Forall_app. split; [exact TT|]. constructor; [|constructor]. cbn [snd fst kbody]. rewrite Q. exact T.
      - apply good_any. auto. }
    assert (L3 : ctx_le x1 y').
    { eapply ctx_le_trans; [|exact L2]. eapply ctx_le_trans; [exact (fresh_mark_le x1)|]. eapply ctx_le_trans; [exact (fresh_branch_le _)|]. apply with_muts_le. }
    eapply (good_wide (x' := x1) (y' := y')) in G2; [| |apply ctx_le_refl].
    2:{ eapply ctx_le_trans; [exact (fresh_mark_le x1)|]. eapply ctx_le_trans; [exact (fresh_branch_le _)|]. apply with_muts_le. }
    eapply good_impl; [|exact (good_and L1 L3 G1 G2)]. intros th rho cl [Q1 Q2] Ic V T TT.
    destruct Q1 as [T1 TT1]; [exact (le_incl L3 Ic)|exact T|exact TT|].
    destruct Q2 as [T2 TT2]; [exact Ic| |exact T1|exact TT1|].
    { intros xs Fx. apply V. rewrite <- Fx. cbn [sc_frees save_scope frees push_mut with_muts next_branch next_mark]. pose proof (sh_closure Es) as Sh. destruct (sh_frees Sh) as (zs & Fz & Lz). destruct zs; [|discriminate]. rewrite app_nil_r in Fz. exact Fz. }
    inversion T2 as [|? ? Tb Tr]; subst. split; [|exact TT2].
    destruct (choice_types (S (branch_uid x1)) (S (mark_uid x1)) Tr) as [C1 C2]. cbn. cbn in C1, C2. rewrite C2. split; [reflexivity|]. split; [reflexivity|]. exists t. auto.
  - (* star *)
    destruct m.
    + apply cbind_ok in H. destruct H as ([body x1'] & E & H). apply cbind_ok in E. destruct E as ([body' x1] & E & E').
      apply COk_inj, pair_inj in E'. destruct E' as [-> <-]. apply COk_inj in H.
      destruct (body_types IHr E) as (L1 & F1 & G1). pose proof (sh_repeat H) as Shr.
      eapply good_wide; [apply ctx_le_refl|eapply ctx_le_trans; [apply with_ncomb_le|apply (sh_le Shr)]|]. eapply good_impl; [|exact G1]. intros th rho cl Q Ic _ T TT.
      destruct Q as [TB TT1]; [eapply le_incl; [|exact Ic]; eapply ctx_le_trans; [apply with_ncomb_le|apply (sh_le Shr)]|exact TT|].
      destruct (repeat_types H T TB) as [TC CC]. rewrite CC. auto.
    + apply cbind_ok in H. destruct H as ([r x1] & Er & H). destruct (open_scope (card G e) x1) as [sc x2] eqn:Eo.
      apply cbind_ok in H. destruct H as ([body x4'] & E & H). apply cbind_ok in E. destruct E as ([body' x4] & E & E').
      apply COk_inj, pair_inj in E'. destruct E' as [-> <-]. apply cbind_ok in H. destruct H as (x5 & Ec & H).
      destruct (repeat_code 0 s CFailure body x5) as [c6 x6] eqn:E6. apply COk_inj, pair_inj in H. destruct H as [<- <-].
      destruct (@scope_types fuel e x r x1 sc x2 (fun r fs => CPush r fs CState) body x4 x5 IHm HM (Forall_inv HK) Er Eo E Ec) as (L5 & F5 & G5). pose proof (sh_repeat E6) as Shr.
      eapply good_wide; [apply ctx_le_refl|apply (sh_le Shr)|]. eapply good_impl; [|exact G5]. intros th rho cl Q Ic V T TT.
      specialize (V [r]). rewrite (repeat_frees E6) in V. specialize (V F5). cbn [cm] in V. rewrite (HE eq_refl) in V. inversion V as [|? ? ? ? V1 _]; subst.
      destruct Q as [TB TT1]; [eapply le_incl; [apply (sh_le Shr)|exact Ic]|intros VS; cbn; split; [exists (co e); auto|reflexivity]|exact TT|].
      destruct (repeat_types E6 T TB) as [TC CC]. rewrite CC. split; [cbn; split; [eauto|exact TC]|exact TT1].
  - destruct m.
    + apply cbind_ok in H. destruct H as ([body x1'] & E & H). apply cbind_ok in E. destruct E as ([body' x1] & E & E').
      apply COk_inj, pair_inj in E'. destruct E' as [-> <-]. apply COk_inj in H.
      destruct (body_types IHr E) as (L1 & F1 & G1). pose proof (sh_repeat H) as Shr.
      eapply good_wide; [apply ctx_le_refl|eapply ctx_le_trans; [apply with_ncomb_le|apply (sh_le Shr)]|]. eapply good_impl; [|exact G1]. intros th rho cl Q Ic _ T TT.
      destruct Q as [TB TT1]; [eapply le_incl; [|exact Ic]; eapply ctx_le_trans; [apply with_ncomb_le|apply (sh_le Shr)]|exact TT|].
      destruct (repeat_types H T TB) as [TC CC]. rewrite CC. auto.
    + apply cbind_ok in H. destruct H as ([r x1] & Er & H). destruct (open_scope (card G e) x1) as [sc x2] eqn:Eo.
      apply cbind_ok in H. destruct H as ([body x4'] & E & H). apply cbind_ok in E. destruct E as ([body' x4] & E & E').
      apply COk_inj, pair_inj in E'. destruct E' as [-> <-]. apply cbind_ok in H. destruct H as (x5 & Ec & H).
      destruct (repeat_code 1 s CFailure body x5) as [c6 x6] eqn:E6. apply COk_inj, pair_inj in H. destruct H as [<- <-].
      destruct (@scope_types fuel e x r x1 sc x2 (fun r fs => CPush r fs CState) body x4 x5 IHm HM (Forall_inv HK) Er Eo E Ec) as (L5 & F5 & G5). pose proof (sh_repeat E6) as Shr.
      eapply good_wide; [apply ctx_le_refl|apply (sh_le Shr)|]. eapply good_impl; [|exact G5]. intros th rho cl Q Ic V T TT.
      specialize (V [r]). rewrite (repeat_frees E6) in V. specialize (V F5). cbn [cm] in V. rewrite (HE eq_refl) in V. inversion V as [|? ? ? ? V1 _]; subst.
      destruct Q as [TB TT1]; [eapply le_incl; [apply (sh_le Shr)|exact Ic]|intros VS; cbn; split; [exists (co e); auto|reflexivity]|exact TT|].
      destruct (repeat_types E6 T TB) as [TC CC]. rewrite CC. split; [cbn; split; [eauto|exact TC]|exact TT1].
  - destruct m.
    + apply cbind_ok in H. destruct H as ([body x1'] & E & H). apply cbind_ok in E. destruct E as ([body' x1] & E & E').
      apply COk_inj, pair_inj in E'. destruct E' as [-> <-]. apply COk_inj in H.
      destruct (body_types IHr E) as (L1 & F1 & G1). pose proof (sh_optional H) as Shr.
      eapply good_wide; [apply ctx_le_refl|eapply ctx_le_trans; [apply with_ncomb_le|apply (sh_le Shr)]|]. eapply good_impl; [|exact G1]. intros th rho cl Q Ic _ T TT.
      destruct Q as [TB TT1]; [eapply le_incl; [|exact Ic]; eapply ctx_le_trans; [apply with_ncomb_le|apply (sh_le Shr)]|exact TT|].
      destruct (optional_types H T TB) as [TC CC]. rewrite CC. auto.
    + apply cbind_ok in H. destruct H as ([r x1] & Er & H). destruct (open_scope (card G e) x1) as [sc x2] eqn:Eo.
      apply cbind_ok in H. destruct H as ([body x4'] & E & H). apply cbind_ok in E. destruct E as ([body' x4] & E & E').
      apply COk_inj, pair_inj in E'. destruct E' as [-> <-]. apply cbind_ok in H. destruct H as (x5 & Ec & H).
      destruct (optional_code s body x5) as [c6 x6] eqn:E6. apply COk_inj, pair_inj in H. destruct H as [<- <-].
      destruct (@scope_types fuel e x r x1 sc x2 (fun r fs => CSetSome r fs CState) body x4 x5 IHm HM (Forall_inv HK) Er Eo E Ec) as (L5 & F5 & G5). pose proof (sh_optional E6) as Shr.
      eapply good_wide; [apply ctx_le_refl|apply (sh_le Shr)|]. eapply good_impl; [|exact G5]. intros th rho cl Q Ic V T TT.
      specialize (V [r]). rewrite (optional_frees E6) in V. specialize (V F5). cbn [cm] in V. rewrite (HE eq_refl) in V. inversion V as [|? ? ? ? V1 _]; subst.
      destruct Q as [TB TT1]; [eapply le_incl; [apply (sh_le Shr)|exact Ic]|intros VS; cbn; split; [exists (co e); auto|reflexivity]|exact TT|].
      destruct (optional_types E6 T TB) as [TC CC]. rewrite CC. split; [cbn; split; [eauto|exact TC]|exact TT1].
  - destruct m; [|discriminate]. apply cbind_ok in H. destruct H as ([body x2'] & E & H).
    apply cbind_ok in E. destruct E as ([body' x2] & E & E').
    apply COk_inj, pair_inj in E'. destruct E' as [-> <-]. apply COk_inj, pair_inj in H. destruct H as [<- <-].
    destruct (body_types IHr E) as (L1 & F1 & G1). eapply good_wide; [exact (fresh_mark_le x)|apply with_ncomb_le|]. eapply good_impl; [|exact G1].
    intros th rho cl Q Ic _ T TT. destruct Q as [TB TT1]; [exact Ic|exact TT|]. cbn. auto 15.
  - destruct m; [|discriminate]. apply cbind_ok in H. destruct H as ([body x2'] & E & H).
    apply cbind_ok in E. destruct E as ([body' x2] & E & E').
    apply COk_inj, pair_inj in E'. destruct E' as [-> <-]. apply COk_inj, pair_inj in H. destruct H as [<- <-].
    destruct (body_types IHr E) as (L1 & F1 & G1). eapply good_wide; [exact (fresh_mark_le x)|apply with_ncomb_le|]. eapply good_impl; [|exact G1].
    intros th rho cl Q Ic _ T TT. destruct Q as [TB TT1]; [exact Ic|exact TT|]. cbn. auto 15.
  - (* action *)
    destruct m; [exact (IHr e _ _ _ _ t I H)|].
    apply cbind_ok in H. destruct H as ([r x1] & Er & H). destruct (open_scope (card G e) x1) as [sc x2] eqn:Eo.
    apply cbind_ok in H. destruct H as ([body x4'] & E & H). apply cbind_ok in E. destruct E as ([body' x4] & E & E').
    apply COk_inj, pair_inj in E'. destruct E' as [-> <-]. apply cbind_ok in H. destruct H as (x5 & Ec & H).
    apply COk_inj, pair_inj in H. destruct H as [<- <-].
    apply next_free_var_ok in Er. destruct Er as [F E1]. pose proof (compile_shape (m := Par) HM E) as Sh. apply close_scope_ok in Ec. destruct Ec as [Fy Ex].
    cbn [frees with_ncomb] in Fy. apply pair_inj in Eo. destruct Eo as [Es E2].
    assert (T2 : closures x2 = closures x) by (rewrite <- E2, E1; reflexivity).
    assert (F2 : frees x2 = map (NVar (prefix_uid x)) (seq 0 (card G e))) by (rewrite <- E2, E1; reflexivity).
    assert (U2 : prefix_uid x2 = S (prefix_uid x)) by (rewrite <- E2, E1; reflexivity).
    assert (L2 : ctx_le x x2).
    { pose proof (open_scope_le (card G e) x1) as Lo. unfold open_scope, fresh_vars in Lo. cbn [snd] in Lo. rewrite E2 in Lo.
      eapply ctx_le_trans; [|exact Lo]. rewrite E1. apply with_frees_le. }
    assert (L5 : ctx_le x4 x5) by (rewrite Ex; eapply ctx_le_trans; [apply with_ncomb_le|apply restore_scope_le]).
    pose proof (good_var (x := x) (y := x2) (u := prefix_uid x) (co e) ltac:(lia)) as G1.
    pose proof (good_wide (ctx_le_refl _) L5 (IHm _ _ _ _ _ t (Forall_inv HK) E)) as G2.
    eapply good_impl; [|exact (good_and L2 (ctx_le_trans (sh_le Sh) L5) G1 G2)]. intros th rho cl [Q1 Q2] Ic V T TT. rewrite CL, <- F2 in Q1.
    assert (C5 : closures x5 = closures x4) by (rewrite Ex; reflexivity). rewrite C5 in *.
    specialize (V [r]). rewrite Ex, <- Es in V. specialize (V F). cbn [cm] in V. destruct (HE eq_refl) as [HE1 HE2]. rewrite HE1 in V. inversion V as [|? ? ? ? V1 _]; subst.
    apply Q2; [exact Ic|intros xs Fx; rewrite Fy in Fx; cbn [app] in Fx; subst xs; exact Q1|cbn; split; [exists (co e); split; [exact Q1|exact HE2]|auto]|rewrite T2; exact TT].
  - (* ascription *) assert (Q : cm m i = cm m e) by (destruct m; [reflexivity|symmetry; exact (HE eq_refl)]). rewrite Q. exact (IHm e _ _ _ _ t (Forall_inv HK) H).
  - destruct m; [exact (IHr e _ _ _ _ t I H)|].
    destruct (next_mark x) as [lo x1] eqn:Em. apply cbind_ok in H. destruct H as ([r0 x2] & Er & H).
    apply cbind_ok in H. destruct H as ([body x3'] & E & H). apply cbind_ok in E. destruct E as ([body' x3] & E & E').
    apply COk_inj, pair_inj in E'. destruct E' as [-> <-]. apply COk_inj, pair_inj in H. destruct H as [<- <-].
    exact (@span_types fuel false i e x lo x1 r0 x2 s body x3 t IHm HM (Forall_inv HK) (HE eq_refl) Em Er E).
  - destruct m; [exact (IHr e _ _ _ _ t I H)|].
    destruct (next_mark x) as [lo x1] eqn:Em. apply cbind_ok in H. destruct H as ([r0 x2] & Er & H).
    apply cbind_ok in H. destruct H as ([body x3'] & E & H). apply cbind_ok in E. destruct E as ([body' x3] & E & E').
    apply COk_inj, pair_inj in E'. destruct E' as [-> <-]. apply COk_inj, pair_inj in H. destruct H as [<- <-].
    exact (@span_types fuel true i e x lo x1 r0 x2 s body x3 t IHm HM (Forall_inv HK) (HE eq_refl) Em Er E).
Qed.

(** ---------------- functions ---------------- *)
Lemma assoc_th D : NoDup (map fst D) -> exists th, th_sat th D.
Proof.
  intros N. exists (fun u j => match find (fun d => fst d =? u) D with Some (_, l) => nth j l SUnit | None => SUnit end). intros u l j t I0 Q.
  induction D as [|[v l'] D IH]; [destruct I0|]. cbn in N. inversion N as [|? ? NI N']; subst. cbn [find fst]. destruct (v =? u) eqn:E.
  - apply Nat.eqb_eq in E. subst v. destruct I0 as [I0|I0]; [injection I0 as ->; exact (nth_error_nth _ _ _ Q)|]. destruct NI. apply in_map_iff. exists (u, l). auto.
  - destruct I0 as [I0|I0]; [injection I0 as -> ->; rewrite Nat.eqb_refl in E; discriminate|exact (IH N' I0)].
Qed.
Lemma assoc_rho E : NoDup (map fst E) -> exists rho, rho_sat rho E.
Proof.
  intros N. exists (fun u => match find (fun d => fst d =? u) E with Some (_, t) => t | None => SUnit end). intros k t I0.
  induction E as [|[v t'] E IH]; [destruct I0|]. cbn in N. inversion N as [|? ? NI N']; subst. cbn [find fst]. destruct (v =? k) eqn:Q.
  - apply Nat.eqb_eq in Q. subst v. destruct I0 as [I0|I0]; [congruence|]. destruct NI. apply in_map_iff. exists (k, t). auto.
  - destruct I0 as [I0|I0]; [injection I0 as -> ->; rewrite Nat.eqb_refl in Q; discriminate|exact (IH N' I0)].
Qed.
Lemma good_some x y Q : good x y Q -> exists th rho, forall cl, Q th rho cl.
Proof.
  intros (D & E & [_ N1] & [_ N2] & K). destruct (assoc_th N1) as (th & H1). destruct (assoc_rho N2) as (rho & H2). exists th, rho. intros cl. apply K; assumption.
Qed.
Theorem recognizer_types rl f : gen_recognizer G rl = COk f -> func_typed P f SUnit.
Proof.
  intros H. pose proof (recognizer_scoped H) as SC. pose proof (recognizer_no_rebind H) as NR. pose proof (proj1 NR) as ND.
  unfold gen_recognizer in H. apply cbind_ok in H. destruct H as ([c x] & E & H). apply COk_inj in H. subst f.
  destruct (good_some (@compile_types (gen_fuel G) Rec I I _ _ _ _ _ SUnit I E)) as (th & rho & Q).
  pose proof (compile_shape (m := Rec) I E) as Sh. destruct (sh_frees Sh) as (xs & Fx & Lx).
  destruct (Q (closures x)) as [T TT]; [apply incl_refl| |cbn; exists []; split; [constructor|reflexivity]|constructor|].
  { intros ys Fy. symmetry in Fy. apply app_eq_nil in Fy. destruct Fy as [_ ->]. constructor. }
  exact (function_typed ND TT T SC NR).
Qed.
Theorem parser_types rl f : coherent G -> cotym Par -> R (rexpr rl) -> P Rec (Local (rname rl)) SUnit ->
  gen_parser G rl = COk f -> (func_typed P f (assemble (co (rexpr rl))) <-> no_unbound_name f).
Proof.
  intros HC HT HR HP H. split; [apply typed_no_unbound|]. intros SC. pose proof (parser_no_rebind HC H) as NR. pose proof (proj1 NR) as ND.
  unfold gen_parser in H. destruct (ty_of G (rexpr rl)) as [t|] eqn:Et; [|discriminate]. destruct (ty_is_unit t) eqn:U.
  - apply COk_inj in H. subst f. pose proof (CL (rexpr rl)) as L. unfold card in L. rewrite Et in L. destruct t; try discriminate U. cbn in L.
    destruct (co (rexpr rl)); [|discriminate L]. exists []. split; [constructor|]. cbn. constructor; [exact HP|reflexivity].
  - destruct (open_scope (card G (rexpr rl)) new_ctx) as [sc x1] eqn:Eo. apply cbind_ok in H. destruct H as ([c x2] & E & H).
    apply cbind_ok in H. destruct H as (x3 & Ec & H). apply COk_inj in H. subst f.
    apply close_scope_ok in Ec. destruct Ec as [Fy Ex]. apply pair_inj in Eo. destruct Eo as [Es E1].
    assert (T3 : closures x3 = closures x2) by (rewrite Ex; reflexivity).
    assert (F1 : frees x1 = map (NVar (prefix_uid new_ctx)) (seq 0 (card G (rexpr rl)))) by (rewrite <- E1; reflexivity).
    assert (U1 : prefix_uid x1 = S (prefix_uid new_ctx)) by (rewrite <- E1; reflexivity).
    assert (C1 : closures x1 = []) by (rewrite <- E1; reflexivity).
    assert (L1 : ctx_le new_ctx x1). { pose proof (open_scope_le (card G (rexpr rl)) new_ctx) as Lo. unfold open_scope, fresh_vars in Lo. cbn [snd] in Lo. rewrite E1 in Lo. exact Lo. }
    pose proof (compile_shape (m := Par) HC E) as Sh.
    pose proof (good_var (x := new_ctx) (y := x1) (u := prefix_uid new_ctx) (co (rexpr rl)) ltac:(lia)) as G1.
    pose proof (@compile_types (gen_fuel G) Par HC HT _ _ _ _ _ (assemble (co (rexpr rl))) HR E) as G2.
    destruct (good_some (good_and L1 (sh_le Sh) G1 G2)) as (th & rho & Q). destruct (Q (closures x2)) as [V Q2]. rewrite CL, <- F1 in V.
    destruct Q2 as [T TT]; [apply incl_refl| |cbn; exists (co (rexpr rl)); auto|rewrite C1; constructor|].
    { intros ys Fys. rewrite Fy in Fys. cbn [app] in Fys. subst ys. exact V. }
    rewrite T3 in *. exact (function_typed ND TT T SC NR).
Qed.
End Gen.
