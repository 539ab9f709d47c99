(** Property theorems about generated identifiers (C27, C42). *)
From Verif Require Import Base Utf8 Stream ParseState RuntimeFacts Grammar PegSpec Target Compile TargetFacts ScopeFacts
  CompileShape EvalRules CompileCorrect ScopeGen GenTotal PegFacts Running WellFormed WfFacts WfSound PegRun SumGrammar Names NoShadow.
Set Implicit Arguments. Unset Strict Implicit.
Open Scope string_scope. Open Scope nat_scope. Open Scope list_scope.

(** C27.  Two identifiers are rendered alike only if they are the same, or if a variable prefix spells
    "mark" or "counter": the 187264th and the 5308018614th prefix. *)
Definition clash (a b : gname) : Prop := exists u k, a = GLocal (NVar u k) /\
  ((N.of_nat u = mark_clash /\ b = GLocal (NMark k)) \/ (N.of_nat u = counter_clash /\ b = GLocal (NCounter k))).

Lemma clash_render a b : clash a b -> render a = render b.
Proof.
  intros (u & k & -> & [[E ->]|[E ->]]); cbn [render]; rewrite E; f_equal; vm_compute; reflexivity.
Qed.
Lemma x_no_clash b : render (GLocal NX) = render b -> b = GLocal NX.
Proof.
  intros H. destruct (name_eqb match b with GLocal n => n | GClosure k => NMark k end NX) eqn:E.
  - destruct b as [[]|]; try discriminate E. reflexivity.
  - assert (Nb : b <> GLocal NX) by (intros ->; discriminate E). rewrite (render_stem Nb) in H. exfalso.
    destruct (decimal_digits (N.of_nat (num b))) as [D1 D2].
    assert (F : forall c, In c (decimal (N.of_nat (num b))) -> c = 120%N).
    { intros c Hc. assert (In c (render (GLocal NX))) as Q by (rewrite H; apply in_or_app; auto). destruct Q as [<-|[]]. reflexivity. }
    destruct (decimal (N.of_nat (num b))) as [|c r]; [contradiction|]. specialize (F c (or_introl eq_refl)). inversion D2; subst. discriminate.
Qed.

Theorem C27_rendering_exact : forall a b, render a = render b <-> a = b \/ clash a b \/ clash b a.
Proof.
  intros a b. split; [|intros [->|[H|H]]; [reflexivity|apply clash_render, H|symmetry; apply clash_render, H]].
  intros H. destruct (name_eqb match a with GLocal n => n | GClosure k => NMark k end NX) eqn:Ea.
  { destruct a as [[]|]; try discriminate Ea. left. symmetry. apply x_no_clash, H. }
  destruct (name_eqb match b with GLocal n => n | GClosure k => NMark k end NX) eqn:Eb.
  { destruct b as [[]|]; try discriminate Eb. left. apply x_no_clash. symmetry. exact H. }
  assert (Na : a <> GLocal NX) by (intros ->; discriminate Ea). assert (Nb : b <> GLocal NX) by (intros ->; discriminate Eb).
  destruct (render_split Na Nb H) as [St Nu]. unfold clash.
  destruct a as [[u i|k|k|k|]|k], b as [[v j|l|l|l|]|l]; cbn [stem num] in St, Nu; subst; try congruence; try discriminate St; try (left; reflexivity).
  - left. apply prefix_inj in St. apply Nat2N.inj in St. congruence.
  - right. left. exists u, l. split; [reflexivity|]. left. split; [apply prefix_mark, St|reflexivity].
  - exfalso. refine (no_underscore _ St). unfold str_branch. cbn. tauto.
  - right. left. exists u, l. split; [reflexivity|]. right. split; [apply prefix_counter, St|reflexivity].
  - exfalso. refine (no_underscore _ St). unfold str_closure. cbn. tauto.
  - right. right. exists v, j. split; [reflexivity|]. left. split; [apply prefix_mark; symmetry; exact St|reflexivity].
  - exfalso. refine (no_underscore _ (eq_sym St)). unfold str_branch. cbn. tauto.
  - right. right. exists v, j. split; [reflexivity|]. right. split; [apply prefix_counter; symmetry; exact St|reflexivity].
  - exfalso. refine (no_underscore _ (eq_sym St)). unfold str_closure. cbn. tauto.
Qed.

(** All identifiers given out by one factory are distinct, below 187264 variable prefixes. *)
Definition is_vars (r : request) : bool := match r with ReqVars _ => true | _ => false end.
Definition prefixes (rs : list request) : nat := length (filter is_vars rs).

Definition gold (x : ctx) (g : gname) : Prop := match g with GLocal n => old x n | GClosure k => k <= closure_uid x end.
Lemma issue_new r x l y : issue r x = (l, y) -> NoDup l /\ (forall g, In g l -> gold y g /\ ~ gold x g) /\ (forall g, gold x g -> gold y g)
  /\ prefix_uid y = prefix_uid x + (if is_vars r then 1 else 0) /\ (forall u k, In (GLocal (NVar u k)) l -> u = prefix_uid x /\ is_vars r = true).
Proof.
  destruct r as [| | | |c]; intros H; apply pair_inj in H; destruct H as [<- <-]; cbn [is_vars prefix_uid].
  1-4: split; [repeat constructor; intros []|]; split; [intros g [<-|[]]; cbn; lia|]; split; [intros [[]|] Q; cbn in *; lia|];
    split; [lia|]; intros u k [Q|[]]; discriminate.
  split; [|split; [|split; [|split]]].
  - apply FinFun.Injective_map_NoDup; [intros a b Q; congruence|]. apply fresh_vars_new.
  - intros g Hg. apply in_map_iff in Hg. destruct Hg as (n & <- & Hn). apply fresh_vars_new in Hn. destruct Hn as [i ->]. cbn. lia.
  - intros [[]|] Q; cbn in *; lia.
  - lia.
  - intros u k Q. apply in_map_iff in Q. destruct Q as (n & E & Hn). apply fresh_vars_new in Hn. destruct Hn as [i ->]. split; [congruence|reflexivity].
Qed.
Lemma issue_all_new rs : forall x, NoDup (issue_all rs x) /\ (forall g, In g (issue_all rs x) -> ~ gold x g)
  /\ forall u k, In (GLocal (NVar u k)) (issue_all rs x) -> u < prefix_uid x + prefixes rs.
Proof.
  induction rs as [|r rs IH]; intros x; cbn [issue_all]; [split; [constructor|split; intros; contradiction]|].
  destruct (issue r x) as [l y] eqn:E. destruct (issue_new E) as (N & A & M & P & U). destruct (IH y) as (N2 & A2 & U2). split; [|split].
  - apply NoDup_app_intro; [exact N|exact N2|]. intros g H1 H2. apply (A2 g H2). apply A, H1.
  - intros g Hg. apply in_app_or in Hg. destruct Hg as [Hg|Hg]; [apply A, Hg|]. intros Q. apply (A2 g Hg), M, Q.
  - intros u k Hg. apply in_app_or in Hg. unfold prefixes. cbn [filter]. destruct Hg as [Hg|Hg].
    + apply U in Hg. destruct Hg as [-> ->]. cbn [length]. lia.
    + apply U2 in Hg. unfold prefixes in Hg. rewrite P in Hg. destruct (is_vars r); cbn [length] in *; lia.
Qed.

Theorem C27_names_distinct : forall rs, (N.of_nat (prefixes rs) < mark_clash)%N -> NoDup (map render (issue_all rs new_ctx)).
Proof.
  intros rs H. destruct (issue_all_new rs new_ctx) as (N & _ & U). 
  assert (I : forall a b, In a (issue_all rs new_ctx) -> In b (issue_all rs new_ctx) -> render a = render b -> a = b).
  { intros a b Ha Hb E. apply C27_rendering_exact in E. destruct E as [E|E]; [exact E|].
    assert (Q : forall c d, In c (issue_all rs new_ctx) -> ~ clash c d).
    { intros c d Hc (u & k & -> & K). apply U in Hc. cbn [new_ctx prefix_uid] in Hc. unfold mark_clash, counter_clash in *.
      destruct K as [[K _]|[K _]]; lia. }
    destruct E as [E|E]; exfalso; [exact (Q _ _ Ha E)|exact (Q _ _ Hb E)]. }
  revert N I. generalize (issue_all rs new_ctx) as l. induction 1 as [|a l Ha Hl IH]; intros I; cbn; [constructor|]. constructor.
  - intros Q. apply in_map_iff in Q. destruct Q as (b & E & Hb). assert (b = a) as -> by (apply I; [right; exact Hb|left; reflexivity|exact E]). contradiction.
  - apply IH. intros b c Hb Hc. apply I; right; assumption.
Qed.

(** 187263 unused scopes, one scope of two variables and one mark: "mark1" twice. *)
Theorem C27_names_distinct_refuted : ~ forall rs, NoDup (map render (issue_all rs new_ctx)).
Proof.
  intros H. assert (exists u, N.of_nat u = mark_clash) as [u Hu] by (exists (N.to_nat mark_clash); apply N2Nat.id).
  assert (Pu : 1 <= u) by (unfold mark_clash in Hu; lia).
  assert (S1 : forall k x, fold_left (fun y r => snd (issue r y)) (repeat (ReqVars 0) k) x
     = mkCtx (k + prefix_uid x) (mark_uid x) (branch_uid x) (counter_uid x) (closure_uid x) (closures x) (frees x) (marks x) (muts x) (ncomb x)).
  { induction k as [|k IH]; intros x; [destruct x; reflexivity|]. cbn [repeat fold_left]. rewrite IH. cbn. f_equal. lia. }
  assert (S2 : forall k rs x, issue_all (repeat (ReqVars 0) k ++ rs) x = issue_all rs (fold_left (fun y r => snd (issue r y)) (repeat (ReqVars 0) k) x)).
  { induction k as [|k IH]; intros rs x; [reflexivity|]. cbn [repeat app fold_left issue_all]. cbn [issue fresh_vars seq map app snd]. rewrite IH. reflexivity. }
  specialize (H (repeat (ReqVars 0) (pred u) ++ [ReqVars 2; ReqMark])). rewrite S2, S1 in H.
  cbn [new_ctx prefix_uid mark_uid branch_uid counter_uid closure_uid closures frees marks muts ncomb issue_all issue fresh_vars next_mark seq map app] in H.
  replace (pred u + 1) with u in H by lia.
  apply NoDup_cons_iff in H. destruct H as [_ H]. apply NoDup_cons_iff in H. destruct H as [H3 _]. apply H3. left.
  symmetry. apply (@clash_render (GLocal (NVar u 1)) (GLocal (NMark 1))). exists u, 1. split; [reflexivity|]. left. split; [exact Hu|reflexivity].
Qed.

(** The identifiers of the templates: state, stateful, stateless, is_success, x. *)
Definition template_names : list text :=
  [[115; 116; 97; 116; 101]; [115; 116; 97; 116; 101; 102; 117; 108]; [115; 116; 97; 116; 101; 108; 101; 115; 115];
   [105; 115; 95; 115; 117; 99; 99; 101; 115; 115]; [120]]%N.
Theorem C27_not_a_template_name : forall g, g <> GLocal NX -> ~ In (render g) template_names.
Proof.
  intros g H I. rewrite (render_stem H) in I. destruct (decimal_digits (N.of_nat (num g))) as [D1 D2].
  destruct (decimal (N.of_nat (num g))) as [|c r] eqn:E; [contradiction|]. inversion D2 as [|? ? Hc _]; subst.
  assert (In c (stem g ++ c :: r)) as Q by (apply in_or_app; right; left; reflexivity).
  assert (F : forall t, In t template_names -> In c t -> False).
  { intros t Ht Hin. cbn in Ht. repeat (destruct Ht as [<-|Ht]; [cbn in Hin; repeat (destruct Hin as [<-|Hin]; [discriminate Hc|]); contradiction|]). contradiction. }
  exact (F _ I Q).
Qed.

(** In generated code no variable is bound again while it is in scope, the parameters of a closure
    are distinct, and so are the closures. *)
Theorem C27_no_shadowing : forall G rl f,
  gen_recognizer G rl = COk f \/ (coherent G /\ gen_parser G rl = COk f) -> func_no_rebind f.
Proof. intros G rl f [H|[C H]]; [exact (recognizer_no_rebind H)|exact (parser_no_rebind C H)]. Qed.

(** Functions of a module: two rules or two modes never share a function name. *)
Theorem C27_function_names : forall m1 r1 m2 r2, function_name m1 r1 = function_name m2 r2 -> m1 = m2 /\ r1 = r2.
Proof.
  intros [] r1 [] r2 H; cbn in H; try discriminate; (split; [reflexivity|]); repeat (injection H as H); exact H.
Qed.

Example C27_case : map render (issue_all [ReqVars 2; ReqMark; ReqVars 1; ReqBranch; ReqCounter; ReqClosure] new_ctx)
  = [[98; 48]; [98; 49]; [109; 97; 114; 107; 49]; [99; 48];
     [98; 114; 97; 110; 99; 104; 95; 102; 97; 105; 108; 101; 100; 95; 49]; [99; 111; 117; 110; 116; 101; 114; 49];
     [115; 117; 99; 99; 101; 115; 115; 95; 99; 111; 110; 116; 105; 110; 117; 97; 116; 105; 111; 110; 95; 49]]%N.
Proof. vm_compute. reflexivity. Qed.
Example C27_case_code : exists f, gen_parser sumG (mkRule "sum" 8) = COk f /\ coherent sumG.
Proof. eexists. split; [vm_compute; reflexivity|apply sum_parsers]. Qed.

(** C42.  [captured B c]: with the locals [B] in scope, [c] calls an action whose name is that of a local. *)
Definition text_of (s : string) : text := map Ascii.N_of_ascii (list_ascii_of_string s).
Definition hides (B : list name) (f : action) : Prop :=
  match f with ActPath [id] => exists n, In n B /\ render (GLocal n) = text_of id | _ => False end.
Fixpoint captured (B : list name) (c : code) : Prop :=
  match c with
  | CState | CFailure | CTail _ | CSuccess _ | CCall _ _ _ _ => False
  | CLetAct x f _ _ _ c => hides B f \/ captured (x :: B) c
  | CLetMark x c | CLetBool x _ c | CLetCounter x c | CLetNone x c | CLetVec x c | CLetSpan x _ _ c => captured (x :: B) c
  | CSetBool _ _ c | CSetSome _ _ c | CPush _ _ c | CError _ c | CRestore _ c | CRestoreFF _ c
  | CIfFailedRestore _ c => captured B c
  | CMatchNext (Some x) s f | CMatchClass x _ s f => captured (x :: B) s \/ captured B f
  | CMatchNext None s f | CPrefix _ s f | CCallRec _ s f | CAssign s f | CIfTrue _ s f | CTestRestore _ s f
  | CIfLess _ _ s f | CLoop s _ _ f => captured B s \/ captured B f
  | CCallPar _ vars s f => captured (vars ++ B) s \/ captured B f
  end.
Definition func_captured (f : func) : Prop := captured [] (fbody f)
  \/ exists k clo, In (k, clo) (fclosures f) /\ captured (kmuts clo ++ kfrees clo ++ kmarks clo) (kbody clo).
(** The name of an action cannot be that of a local if it does not end with a digit and is not "x". *)
Definition safe_action (f : action) : Prop :=
  match f with
  | ActPath [id] => id <> "x" /\ match rev (text_of id) with c :: _ => is_digit c = false | [] => True end
  | _ => True
  end.
Fixpoint actions_of (c : code) : list action :=
  match c with
  | CState | CFailure | CTail _ | CSuccess _ | CCall _ _ _ _ => []
  | CLetAct x f _ _ _ c => f :: actions_of c
  | CLetMark x c | CLetBool x _ c | CLetCounter x c | CLetNone x c | CLetVec x c | CLetSpan x _ _ c => actions_of c
  | CSetBool _ _ c | CSetSome _ _ c | CPush _ _ c | CError _ c | CRestore _ c | CRestoreFF _ c
  | CIfFailedRestore _ c => actions_of c
  | CMatchNext _ s f | CMatchClass _ _ s f | CPrefix _ s f | CCallRec _ s f | CAssign s f | CIfTrue _ s f | CTestRestore _ s f
  | CIfLess _ _ s f | CLoop s _ _ f | CCallPar _ _ s f => actions_of s ++ actions_of f
  end.

Lemma safe_not_hidden B f : safe_action f -> ~ hides B f.
Proof.
  destruct f as [[|id [|]]|]; cbn [safe_action hides]; try tauto. intros [Nx D] (n & _ & E).
  destruct (name_eqb n NX) eqn:En.
  - destruct n; try discriminate. cbn in E. apply Nx. unfold text_of in E. rewrite <- (string_of_list_ascii_of_string id).
    destruct (list_ascii_of_string id) as [|a [|b l]]; try discriminate. cbn in E. injection E as E. cbn [string_of_list_ascii].
    rewrite <- (Ascii.ascii_N_embedding a), <- E. reflexivity.
  - assert (Nn : GLocal n <> GLocal NX) by (intros Q; injection Q as ->; discriminate). rewrite (render_stem Nn) in E.
    destruct (decimal_digits (N.of_nat (num (GLocal n)))) as [D1 D2]. rewrite <- E, rev_app_distr in D.
    destruct (rev (decimal (N.of_nat (num (GLocal n))))) as [|c r] eqn:R.
    + apply (f_equal (@rev N)) in R. rewrite rev_involutive in R. contradiction.
    + cbn in D. rewrite Forall_forall in D2. rewrite (D2 c) in D; [discriminate|]. apply in_rev. rewrite R. left. reflexivity.
Qed.
Lemma safe_not_captured c : forall B, Forall safe_action (actions_of c) -> ~ captured B c.
Proof.
  induction c; intros B H; cbn [captured actions_of] in *; try tauto; try (apply IHc, H);
    try (apply Forall_app in H; destruct H as [H1 H2]; intros [Q|Q]; [exact (IHc1 _ H1 Q)|exact (IHc2 _ H2 Q)]).
  - inversion H; subst. intros [Q|Q]; [exact (safe_not_hidden H2 Q)|exact (IHc _ H3 Q)].
  - apply Forall_app in H. destruct H as [H1 H2]. destruct x as [x|]; intros [Q|Q]; try exact (IHc1 _ H1 Q); exact (IHc2 _ H2 Q).
Qed.
(** Missing from the full property: actions named like a local ("b0", "mark1", ...) are captured. *)
Theorem C42_action_not_captured_partial : forall f, Forall safe_action (actions_of (fbody f)) ->
  Forall (fun k => Forall safe_action (actions_of (kbody (snd k)))) (fclosures f) -> ~ func_captured f.
Proof.
  intros f H1 H2 [Q|(k & clo & I & Q)]; [exact (safe_not_captured H1 Q)|]. rewrite Forall_forall in H2. exact (safe_not_captured (H2 _ I) Q).
Qed.
(** [r = . (. > b0)]: the function [b0] of the user is hidden by the variable of the first character. *)
Definition captureG : grammar := mkG [mkRule "r" 3] [EAny; EAny; EAct 1 false (ActPath ["b0"]); ESeq [0; 2]]
  [TAtom; TAtom; TRust "T"; TTuple [0; 2]].
Theorem C42_action_not_captured_refuted : ~ forall G rl f, coherent G -> arena_ok G -> accepted G -> In rl (rules G) ->
  gen_parser G rl = COk f -> ~ func_captured f.
Proof.
  intros H. specialize (H captureG (mkRule "r" 3)).
  destruct (gen_parser captureG (mkRule "r" 3)) as [f|] eqn:E; [|vm_compute in E; discriminate].
  refine (H f _ _ _ _ eq_refl _).
  - apply coherentb_ok. vm_compute. reflexivity.
  - apply arena_okb_ok. vm_compute. reflexivity.
  - exists 50, 20. vm_compute. reflexivity.
  - left. reflexivity.
  - left. vm_compute in E. injection E as <-. cbn. left. left. left. exists (NVar 1 0). split; [right; left; reflexivity|vm_compute; reflexivity].
Qed.
Example C42_case : exists f, gen_parser sumG (mkRule "num" 2) = COk f /\ Forall safe_action (actions_of (fbody f)) /\ actions_of (fbody f) <> [].
Proof.
  eexists. split; [vm_compute; reflexivity|]. split; [|discriminate]. cbn. constructor; [split; [discriminate|reflexivity]|constructor].
Qed.

Print Assumptions C27_rendering_exact.
Print Assumptions C27_names_distinct.
Print Assumptions C27_names_distinct_refuted.
Print Assumptions C27_not_a_template_name.
Print Assumptions C27_no_shadowing.
Print Assumptions C27_function_names.
Print Assumptions C42_action_not_captured_partial.
Print Assumptions C42_action_not_captured_refuted.
