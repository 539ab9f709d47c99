(** The calls that emitted code can make: of semantic actions, those of its own [let]s and those of functions outside of the
    module; and of functions, those of its own calls. *)
From Verif Require Import Base Utf8 Stream ParseState RuntimeFacts Grammar PegSpec Target Compile TargetFacts CompileShape.
Set Implicit Arguments. Unset Strict Implicit.
Open Scope nat_scope. Open Scope list_scope.

Notation acall := (action * list value)%type (only parsing).
(** ---------------- emitted code ---------------- *)
Section Calls.
Variable P : acall -> Prop.
Variable R : mode -> callee -> Prop.
(** Every action that [c] calls is allowed, whatever its arguments, and every function. *)
Fixpoint calls_ok (c : code) : Prop :=
  match c with
  | CState | CSuccess _ | CFailure | CCall _ _ _ _ => True
  | CTail id => R Rec (Local id)
  | CCallRec p a b => R Rec p /\ calls_ok a /\ calls_ok b
  | CCallPar p _ a b => R Par p /\ calls_ok a /\ calls_ok b
  | CLetMark _ c | CLetBool _ _ c | CLetCounter _ c | CLetNone _ c | CLetVec _ c | CLetSpan _ _ _ c
  | CSetBool _ _ c | CSetSome _ _ c | CPush _ _ c | CError _ c | CRestore _ c | CRestoreFF _ c | CIfFailedRestore _ c => calls_ok c
  | CLetAct _ f u _ _ c => (u = false -> forall vs, P (f, vs)) /\ calls_ok c
  | CMatchNext _ a b | CMatchClass _ _ a b | CPrefix _ a b | CAssign a b | CIfTrue _ a b | CTestRestore _ a b | CIfLess _ _ a b => calls_ok a /\ calls_ok b
  | CLoop b _ _ c => calls_ok b /\ calls_ok c
  end.
Definition table_ok (cl : ctable) : Prop := Forall (fun k => calls_ok (kbody (snd k))) cl.
Definition func_ok (f : func) : Prop := table_ok (fclosures f) /\ calls_ok (fbody f).

Definition log_ok {A} (r : outcome (A * alog)) : Prop := match r with Done (_, l) => Forall P l | _ => True end.
Lemma log_bind A B (a : outcome A) (k : A -> outcome (B * alog)) : (forall x, a = Done x -> log_ok (k x)) -> log_ok (obind a k).
Proof. destruct a as [x| | |]; intros H; [exact (H x eq_refl)|exact Logic.I|exact Logic.I|exact Logic.I]. Qed.
Lemma log_after (r : out) k : log_ok r -> (forall st e, log_ok (k st e)) -> log_ok (after r k).
Proof.
  intros LR K. unfold after. destruct r as [[[st e] l]| | |]; try exact Logic.I. cbn [obind]. specialize (K st e). destruct (k st e) as [[[st' e'] l']| | |]; try exact Logic.I.
  cbn in *. apply Forall_app. auto.
Qed.
Lemma log_popped (r : out) : log_ok r -> log_ok (popped r).
Proof. unfold popped. destruct r as [[[st e] l]| | |]; try (intros; exact Logic.I). intros LR. cbn [obind]. destruct e; [exact Logic.I|exact LR]. Qed.
Lemma log_popped_n n : forall r : out, log_ok r -> log_ok (popped_n n r).
Proof. induction n as [|n IH]; intros r LR; cbn [popped_n]; [exact LR|apply IH, log_popped, LR]. Qed.

Variable prog : mode -> string -> option func.
Variable xf : mode -> list string -> pst -> outcome (pst * alog).
Hypothesis HP : forall m id f, prog m id = Some f -> func_ok f.
Hypothesis HX : forall m p st, log_ok (xf m p st).

Ltac walk IH := repeat (cbv beta iota zeta;
  match goal with
  | |- True => exact Logic.I
  | |- log_ok Stuck => exact Logic.I
  | |- log_ok (popped _) => apply log_popped
  | |- log_ok (popped_n _ _) => apply log_popped_n
  | |- log_ok (after _ _) => apply log_after; [|intros ? ?]
  | |- log_ok (eval _ _ _ _ _ _ _) => apply IH; cbn [calls_ok]; tauto
  | p : (_ * _)%type |- _ => destruct p
  | |- log_ok (obind _ _) => apply log_bind; intros ? _
  | |- log_ok (match ?b with _ => _ end) => destruct b
  end).

Theorem eval_log n : forall cl c st e, table_ok cl -> calls_ok c -> log_ok (eval prog xf n cl c st e).
Proof.
  induction n as [|n IH]; intros cl c st e T C; [exact Logic.I|].
  assert (CALL : forall m p s, log_ok (match p with Local id => f <~ of_opt (prog m id) ;; '(st', _, l) <~ eval prog xf n (fclosures f) (fbody f) s [] ;; Done (st', l) | Foreign q => xf m q s end)).
  { intros m [id|q] s; [|apply HX]. destruct (prog m id) as [f|] eqn:F; [|exact Logic.I]. cbn [of_opt obind]. destruct (HP F) as [A B]. specialize (IH (fclosures f) (fbody f) s [] A B).
    destruct (eval prog xf n (fclosures f) (fbody f) s []) as [[[st' e'] l]| | |]; try exact Logic.I. exact IH. }
  destruct c; cbn [eval calls_ok] in *; try solve [walk IH].
  - cbn. constructor.
  - apply log_bind. intros vs _. cbn. constructor.
  - cbn. constructor.
  - specialize (CALL Rec (Local id) st). cbv iota in CALL. destruct (f <~ of_opt (prog Rec id) ;; '(st', _, l) <~ eval prog xf n (fclosures f) (fbody f) st [] ;; Done (st', l)) as [[st' l]| | |]; try exact Logic.I. exact CALL.
  - destruct (find (fun x => fst x =? k) cl) as [[k' clo]|] eqn:F; [|exact Logic.I]. destruct (_ =? _); [|exact Logic.I]. apply log_bind. intros vs _.
    assert (B : calls_ok (kbody clo)) by (apply find_some in F; exact (proj1 (Forall_forall _ _) T _ (proj1 F))).
    specialize (IH cl (kbody clo) st (combine (kmuts clo ++ kfrees clo ++ kmarks clo) vs) T B). destruct (eval prog xf n cl (kbody clo) st _) as [[[st' e1] l]| | |]; try exact Logic.I. cbn [obind].
    destruct (write_back _ _ _ _); try exact Logic.I. exact IH.
  - apply log_bind. intros vs _. destruct C as [A B]. apply log_after; [|intros; apply log_popped, IH; assumption]. cbn. destruct unitv; repeat constructor. exact (A eq_refl vs).
  - specialize (CALL Rec p st). match goal with |- log_ok (obind ?r _) => destruct r as [[st' l]| | |]; try exact Logic.I end. cbn [obind]. apply log_after; [exact CALL|]. intros. walk IH.
  - specialize (CALL Par p st). match goal with |- log_ok (obind ?r _) => destruct r as [[st' l]| | |]; try exact Logic.I end. cbn [obind]. apply log_after; [exact CALL|]. intros. walk IH.
Qed.
Theorem run_log n m id st : log_ok (run_fn prog xf n m id st).
Proof.
  unfold run_fn. destruct (prog m id) as [f|] eqn:F; [|exact Logic.I]. destruct (HP F) as [A B]. pose proof (eval_log n st [] A B) as K.
  destruct (eval prog xf n (fclosures f) (fbody f) st []) as [[[st' e'] l]| | |]; try exact Logic.I. exact K.
Qed.
End Calls.

(** The functions outside of the module matter where they are called. *)
Section Same.
Variable P : acall -> Prop.
Variable R : mode -> callee -> Prop.
Variables prog prog' : mode -> string -> option func.
Variables xf xf' : mode -> list string -> pst -> outcome (pst * alog).
Hypothesis HP : forall m id f, R m (Local id) -> prog m id = Some f -> func_ok P R f.
Hypothesis HS : forall m id, R m (Local id) -> prog m id = prog' m id.
Hypothesis HX : forall m p st, R m (Foreign p) -> xf m p st = xf' m p st.
Lemma bind_same A B (a : outcome A) (k k' : A -> outcome B) : (forall x, k x = k' x) -> obind a k = obind a k'.
Proof. destruct a; cbn; auto. Qed.
Lemma after_same (r r' : out) k k' : r = r' -> (forall st e, k st e = k' st e) -> after r k = after r' k'.
Proof. intros <- K. unfold after. apply bind_same. intros [[st e] l]. rewrite K. reflexivity. Qed.
Ltac same IH := repeat (cbv beta iota zeta;
  match goal with
  | |- ?a = ?a => reflexivity
  | |- popped _ = popped _ => f_equal
  | |- popped_n _ _ = popped_n _ _ => f_equal
  | |- after _ _ = after _ _ => apply after_same; [|intros ? ?]
  | |- eval _ _ _ _ _ _ _ = _ => apply IH; cbn [calls_ok]; tauto
  | p : (_ * _)%type |- _ => destruct p
  | |- obind _ _ = obind _ _ => apply bind_same; intros ?
  | |- (match ?b with _ => _ end) = _ => destruct b
  end).
Theorem eval_same n : forall cl c st e, table_ok P R cl -> calls_ok P R c -> eval prog xf n cl c st e = eval prog' xf' n cl c st e.
Proof.
  induction n as [|n IH]; intros cl c st e T C; [reflexivity|].
  assert (CALL : forall m p s, R m p -> match p with Local id => f <~ of_opt (prog m id) ;; '(st', _, l) <~ eval prog xf n (fclosures f) (fbody f) s [] ;; Done (st', l) | Foreign q => xf m q s end =
    match p with Local id => f <~ of_opt (prog' m id) ;; '(st', _, l) <~ eval prog' xf' n (fclosures f) (fbody f) s [] ;; Done (st', l) | Foreign q => xf' m q s end).
  { intros m [id|q] s RM; [|apply HX, RM]. rewrite <- (HS RM). destruct (prog m id) as [f|] eqn:F; [|reflexivity]. cbn [of_opt obind]. destruct (HP RM F) as [A B]. rewrite (IH (fclosures f) (fbody f) s [] A B). reflexivity. }
  destruct c; cbn [eval calls_ok] in *; try solve [same IH].
  - specialize (CALL Rec (Local id) st C). cbv iota in CALL. rewrite CALL. reflexivity.
  - destruct (find (fun x => fst x =? k) cl) as [[k' clo]|] eqn:F; [|reflexivity]. destruct (_ =? _); [|reflexivity]. apply bind_same. intros vs.
    assert (B : calls_ok P R (kbody clo)) by (apply find_some in F; exact (proj1 (Forall_forall _ _) T _ (proj1 F))).
    rewrite (IH cl (kbody clo) st (combine (kmuts clo ++ kfrees clo ++ kmarks clo) vs) T B). reflexivity.
  - destruct C as (RM & C1 & C2). rewrite (CALL Rec p st RM). same IH.
  - destruct C as (RM & C1 & C2). rewrite (CALL Par p st RM). same IH.
Qed.
Theorem run_same n m id st : R m (Local id) -> run_fn prog xf n m id st = run_fn prog' xf' n m id st.
Proof.
  intros RM. unfold run_fn. rewrite <- (HS RM). destruct (prog m id) as [f|] eqn:F; [|reflexivity]. destruct (HP RM F) as [A B]. rewrite (eval_same n st [] A B). reflexivity.
Qed.
End Same.

(** ---------------- the generator ---------------- *)
Section Generator.
Variable P : acall -> Prop.
Variable R : mode -> callee -> Prop.
(** Where values are built. *)
Variable par : Prop.
Variable G : grammar.
(** The expressions of a rule. *)
Variable here : nat -> Prop.
Hypothesis DOWN : forall i e c, here i -> expr_of G i = Some e -> In c (children e) -> here c.
Hypothesis ACT : forall i e b f, here i -> expr_of G i = Some (EAct e b f) -> is_unit G i = false -> forall vs, P (f, vs).
Hypothesis CALLS : forall m i id, m = Rec \/ par -> here i -> expr_of G i = Some (ENT id) -> R m (Local id).
Hypothesis FOREIGN : forall m i p, m = Rec \/ par -> here i -> expr_of G i = Some (EExt p) -> R m (Foreign p).

Local Notation good := (calls_ok P R).
Definition ctx_ok (x : ctx) : Prop := table_ok P R (closures x).
Definition keeps_ok (comp : nat -> code -> ctx -> cres (code * ctx)) : Prop :=
  forall i s x c y, here i -> good s -> ctx_ok x -> comp i s x = COk (c, y) -> good c /\ ctx_ok y.

Lemma next_free_ok x v y : next_free_var x = COk (v, y) -> ctx_ok x -> ctx_ok y.
Proof. intros H C. apply next_free_var_ok in H. destruct H as [_ ->]. exact C. Qed.
Lemma next_skip_ok k x v y : next_free_var_skip k x = COk (v, y) -> ctx_ok x -> ctx_ok y.
Proof. intros H C. apply next_free_var_skip_ok in H. destruct H as (a & b & _ & _ & ->). exact C. Qed.
Lemma pop_ok n : forall x vs y, pop_vars n x = COk (vs, y) -> ctx_ok x -> ctx_ok y.
Proof.
  induction n as [|n IH]; intros x vs y H C; cbn [pop_vars] in H; [injection H as <- <-; exact C|].
  apply cbind_ok in H. destruct H as ([v x1] & E1 & H). apply cbind_ok in H. destruct H as ([ws x2] & E2 & H). injection H as <- <-. exact (IH _ _ _ E2 (next_free_ok E1 C)).
Qed.
Lemma close_ok sc x y : close_scope sc x = COk y -> ctx_ok x -> ctx_ok y.
Proof. unfold close_scope. destruct (frees x); intros H C; [injection H as <-; exact C|discriminate]. Qed.
Lemma pop_mut_ok x y : pop_mut x = COk y -> ctx_ok x -> ctx_ok y.
Proof. unfold pop_mut. destruct (muts x); intros H C; [discriminate|injection H as <-; exact C]. Qed.
Lemma closure_ok s x s1 y : success_as_closure s x = (s1, y) -> good s -> ctx_ok x -> good s1 /\ ctx_ok y.
Proof.
  unfold success_as_closure. destruct (0 <? ncomb x); intros H S0 C; injection H as <- <-; [|auto]. split; [exact Logic.I|].
  unfold ctx_ok, table_ok. cbn [closures]. apply Forall_app. split; [exact C|]. constructor; [exact S0|constructor].
Qed.
Lemma seq_ok comp : keeps_ok comp -> forall l s x c y, Forall here l -> good s -> ctx_ok x -> compile_seq comp l s x = COk (c, y) -> good c /\ ctx_ok y.
Proof.
  intros K l. induction l as [|i l IH]; intros s x c y A S0 C H; cbn [compile_seq] in H; [injection H as <- <-; auto|]. inversion A; subst.
  apply cbind_ok in H. destruct H as ([s1 x1] & E1 & H). apply cbind_ok in H. destruct H as ([c2 x2] & E2 & H). injection H as <- <-.
  destruct (IH _ _ _ _ H3 S0 C E1) as [S1 C1]. destruct (K _ _ _ _ _ H2 S1 C1 E2) as [S2 C2]. auto.
Qed.
Lemma branches_ok comp sc bf s : keeps_ok comp -> good s -> forall l x cs y, Forall here l -> ctx_ok x -> compile_branches comp sc bf s l x = COk (cs, y) -> Forall good cs /\ ctx_ok y.
Proof.
  intros K S0 l. induction l as [|i l IH]; intros x cs y A C H; [discriminate|]. inversion A; subst. destruct l as [|j l].
  - cbn [compile_branches] in H. apply cbind_ok in H. destruct H as (x1 & E1 & H). apply cbind_ok in H. destruct H as ([c x2] & E2 & H). injection H as <- <-.
    assert (C1 : ctx_ok x1) by exact (pop_mut_ok E1 C). destruct (K _ _ _ _ _ H2 S0 C1 E2) as [G2 C2]. auto.
  - change (compile_branches comp sc bf s (i :: j :: l) x) with
      (cbind (comp i (CSetBool bf false s) (restore_scope sc x)) (fun p => let '(c, x1) := p in cbind (compile_branches comp sc bf s (j :: l) (with_ncomb x1 (Datatypes.S (ncomb x1)))) (fun q => let '(cs, x2) := q in COk (c :: cs, x2)))) in H.
    apply cbind_ok in H. destruct H as ([c x1] & E1 & H). apply cbind_ok in H. destruct H as ([cs' x2] & E2 & H). injection H as <- <-.
    assert (C0 : ctx_ok (restore_scope sc x)) by exact C. destruct (K i (CSetBool bf false s) _ c x1 H2 S0 C0 E1) as [G1 C1].
    destruct (IH (with_ncomb x1 (Datatypes.S (ncomb x1))) _ _ H3 C1 E2) as [G2 C2]. auto.
Qed.
Lemma choice_ok bf mk l : Forall good l -> good (choice_code bf mk l).
Proof. induction 1 as [|c l H _ IH]; cbn; auto. Qed.

Theorem compile_calls fuel : forall m0, m0 = Rec \/ par -> keeps_ok (compile G fuel m0).
Proof.
  induction fuel as [|fuel IH]; intros m0 M0 i s x c y Hi S0 C0 H; [discriminate|]. cbn [compile] in H. apply cbind_ok in H. destruct H as (m & Em & H).
  assert (M : m = Rec \/ par) by (destruct m0; [injection Em as <-; auto|destruct M0 as [M0|M0]; [discriminate|auto]]). clear M0. assert (REC : Rec = Rec \/ par) by auto.
  destruct (expr_of G i) as [e|] eqn:Ee; [|discriminate].
  assert (KID : forall d, In d (children e) -> here d) by (intros d Id; exact (DOWN Hi Ee Id)).
  assert (UN : m = Par -> is_unit G i = false).
  { intros ->. unfold eff_mode in Em. destruct m0; [discriminate|]. unfold is_unit. destruct (ty_of G i) as [t|]; [|discriminate]. destruct (ty_is_unit t); [discriminate|reflexivity]. }
  assert (ALL : forall l, (forall d, In d l -> In d (children e)) -> Forall here l) by (intros l IN; apply Forall_forall; intros d Id; exact (KID d (IN d Id))).
  destruct e as [lit| |cls|id|p|l|l|e|e|e|e|e|e bx f|e t|e|e]; cbn [children] in KID, ALL.
  - injection H as <- <-. cbn. auto.
  - destruct m; [injection H as <- <-; cbn; auto|]. apply cbind_ok in H. destruct H as ([v x1] & E1 & H). injection H as <- <-. split; [cbn; auto|exact (next_free_ok E1 C0)].
  - apply cbind_ok in H. destruct H as ([v x1] & E1 & H). apply cbind_ok in H. destruct H as (k & E2 & H). injection H as <- <-. split; [cbn; auto|].
    destruct m; [injection E1 as <- <-; exact C0|exact (next_free_ok E1 C0)].
  - pose proof (CALLS M Hi Ee) as RF. destruct m; [injection H as <- <-; cbn; auto|]. apply cbind_ok in H. destruct H as ([v x1] & E1 & H). injection H as <- <-. split; [cbn; auto|exact (pop_ok E1 C0)].
  - pose proof (FOREIGN M Hi Ee) as RF. destruct m; [injection H as <- <-; cbn; auto|]. apply cbind_ok in H. destruct H as ([v x1] & E1 & H). injection H as <- <-. split; [cbn; auto|exact (pop_ok E1 C0)].
  - exact (@seq_ok _ (IH m M) l s x c y (ALL l (fun d I0 => I0)) S0 C0 H).
  - destruct (success_as_closure s x) as [s1 x1] eqn:Es. destruct (closure_ok Es S0 C0) as [S1 C1]. cbn [next_mark next_branch] in H.
    apply cbind_ok in H. destruct H as ([bs x5] & E & H). destruct bs as [|b r]; [discriminate|]. injection H as <- <-.
    match type of E with compile_branches _ _ _ _ _ ?z = _ => assert (CX : ctx_ok z) by exact C1 end.
    destruct (@branches_ok _ _ _ _ (IH m M) S1 l _ _ _ (ALL l (fun d I0 => I0)) CX E) as [GB C5]. inversion GB; subst. split; [|exact C5]. cbn. split; [assumption|apply choice_ok; assumption].
  - destruct m.
    + apply cbind_ok in H. destruct H as ([b x1] & E & H). apply cbind_ok in E. destruct E as ([b' x0] & E & Q). injection Q as <- <-.
      destruct (IH Rec REC e CState x b' x0 (KID e (or_introl eq_refl)) Logic.I C0 E) as [A B]. injection H as <- <-. cbn. auto.
    + apply cbind_ok in H. destruct H as ([r x1] & E1 & H). cbn [open_scope fresh_vars] in H. apply cbind_ok in H. destruct H as ([b x4] & E2 & H). apply cbind_ok in E2. destruct E2 as ([b' x0] & E2 & Q). injection Q as <- <-.
      apply cbind_ok in H. destruct H as (x5 & E5 & H).
      match type of E2 with compile _ _ _ _ ?k ?z = _ => assert (CX : ctx_ok z) by exact (next_free_ok E1 C0); destruct (IH Par M e k z b' x0 (KID e (or_introl eq_refl)) Logic.I CX E2) as [A B] end. pose proof (close_ok E5 B) as C5. injection H as <- <-. cbn. auto.
  - destruct m.
    + apply cbind_ok in H. destruct H as ([b x1] & E & H). apply cbind_ok in E. destruct E as ([b' x0] & E & Q). injection Q as <- <-.
      destruct (IH Rec REC e CState x b' x0 (KID e (or_introl eq_refl)) Logic.I C0 E) as [A B]. injection H as <- <-. cbn. auto.
    + apply cbind_ok in H. destruct H as ([r x1] & E1 & H). cbn [open_scope fresh_vars] in H. apply cbind_ok in H. destruct H as ([b x4] & E2 & H). apply cbind_ok in E2. destruct E2 as ([b' x0] & E2 & Q). injection Q as <- <-.
      apply cbind_ok in H. destruct H as (x5 & E5 & H).
      match type of E2 with compile _ _ _ _ ?k ?z = _ => assert (CX : ctx_ok z) by exact (next_free_ok E1 C0); destruct (IH Par M e k z b' x0 (KID e (or_introl eq_refl)) Logic.I CX E2) as [A B] end. pose proof (close_ok E5 B) as C5. injection H as <- <-. cbn. auto.
  - destruct m.
    + apply cbind_ok in H. destruct H as ([b x1] & E & H). apply cbind_ok in E. destruct E as ([b' x0] & E & Q). injection Q as <- <-.
      destruct (IH Rec REC e CState x b' x0 (KID e (or_introl eq_refl)) Logic.I C0 E) as [A B]. injection H as <- <-. cbn. auto.
    + apply cbind_ok in H. destruct H as ([r x1] & E1 & H). cbn [open_scope fresh_vars] in H. apply cbind_ok in H. destruct H as ([b x4] & E2 & H). apply cbind_ok in E2. destruct E2 as ([b' x0] & E2 & Q). injection Q as <- <-.
      apply cbind_ok in H. destruct H as (x5 & E5 & H).
      match type of E2 with compile _ _ _ _ ?k ?z = _ => assert (CX : ctx_ok z) by exact (next_free_ok E1 C0); destruct (IH Par M e k z b' x0 (KID e (or_introl eq_refl)) Logic.I CX E2) as [A B] end. pose proof (close_ok E5 B) as C5. injection H as <- <-. cbn. auto.
  - destruct m; [|discriminate]. cbn [next_mark] in H. apply cbind_ok in H. destruct H as ([b x1] & E & H). apply cbind_ok in E. destruct E as ([b' x0] & E & Q). injection Q as <- <-.
    match type of E with compile _ _ _ _ _ ?z = _ => assert (CX : ctx_ok z) by exact C0; destruct (IH Rec REC e CState z b' x0 (KID e (or_introl eq_refl)) Logic.I CX E) as [A B] end. injection H as <- <-. cbn. auto.
  - destruct m; [|discriminate]. cbn [next_mark] in H. apply cbind_ok in H. destruct H as ([b x1] & E & H). apply cbind_ok in E. destruct E as ([b' x0] & E & Q). injection Q as <- <-.
    match type of E with compile _ _ _ _ _ ?z = _ => assert (CX : ctx_ok z) by exact C0; destruct (IH Rec REC e CState z b' x0 (KID e (or_introl eq_refl)) Logic.I CX E) as [A B] end. injection H as <- <-. cbn. auto.
  - destruct m; [exact (IH Rec REC _ _ _ _ _ (KID e (or_introl eq_refl)) S0 C0 H)|].
    apply cbind_ok in H. destruct H as ([r x1] & E1 & H). cbn [open_scope fresh_vars] in H. apply cbind_ok in H. destruct H as ([b x4] & E2 & H). apply cbind_ok in E2. destruct E2 as ([b' x0] & E2 & Q). injection Q as <- <-.
    apply cbind_ok in H. destruct H as (x5 & E5 & H). injection H as <- <-.
    match type of E2 with compile _ _ _ _ ?k ?z = _ => assert (CX : ctx_ok z) by exact (next_free_ok E1 C0); destruct (IH Par M e k z b' x0 (KID e (or_introl eq_refl)) (conj (fun _ => ACT Hi Ee (UN eq_refl)) S0) CX E2) as [A B] end.
    split; [exact A|exact (close_ok E5 B)].
  - exact (IH m M _ _ _ _ _ (KID e (or_introl eq_refl)) S0 C0 H).
  - destruct m; [exact (IH Rec REC _ _ _ _ _ (KID e (or_introl eq_refl)) S0 C0 H)|]. cbn [next_mark] in H.
    apply cbind_ok in H. destruct H as ([r x1] & E1 & H). apply cbind_ok in H. destruct H as ([b x4] & E2 & H). apply cbind_ok in E2. destruct E2 as ([b' x0] & E2 & Q). injection Q as <- <-. injection H as <- <-.
    match type of E2 with compile _ _ _ _ ?k ?z = _ => assert (CX : ctx_ok z) by exact (next_skip_ok E1 C0); destruct (IH Par M e k z b' x0 (KID e (or_introl eq_refl)) S0 CX E2) as [A B] end. auto.
  - destruct m; [exact (IH Rec REC _ _ _ _ _ (KID e (or_introl eq_refl)) S0 C0 H)|]. cbn [next_mark] in H.
    apply cbind_ok in H. destruct H as ([r x1] & E1 & H). apply cbind_ok in H. destruct H as ([b x4] & E2 & H). apply cbind_ok in E2. destruct E2 as ([b' x0] & E2 & Q). injection Q as <- <-. injection H as <- <-.
    match type of E2 with compile _ _ _ _ ?k ?z = _ => assert (CX : ctx_ok z) by exact (next_skip_ok E1 C0); destruct (IH Par M e k z b' x0 (KID e (or_introl eq_refl)) S0 CX E2) as [A B] end. auto.
Qed.
Theorem rule_calls m rl f : m = Rec \/ par -> R Rec (Local (rname rl)) -> here (rexpr rl) -> gen_rule G m rl = COk f -> func_ok P R f.
Proof.
  intros M SF Hr H. assert (N0 : ctx_ok new_ctx) by constructor. destruct m; cbn [gen_rule] in H.
  - unfold gen_recognizer in H. apply cbind_ok in H. destruct H as ([c x] & E & H). injection H as <-. destruct (@compile_calls _ Rec (or_introl eq_refl) _ (CSuccess []) _ _ _ Hr Logic.I N0 E) as [A B]. split; [exact B|exact A].
  - unfold gen_parser in H. destruct (ty_of G (rexpr rl)) as [t|]; [|discriminate]. destruct (ty_is_unit t); [injection H as <-; split; [constructor|exact SF]|].
    cbn [open_scope fresh_vars] in H. apply cbind_ok in H. destruct H as ([c x] & E & H). apply cbind_ok in H. destruct H as (x3 & E3 & H). injection H as <-.
    match type of E with compile _ _ _ _ ?k ?z = _ => assert (CX : ctx_ok z) by exact N0; destruct (@compile_calls _ Par M _ k z _ _ Hr Logic.I CX E) as [A B] end. split; [exact (close_ok E3 B)|exact A].
Qed.
End Generator.
