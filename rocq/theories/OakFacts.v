(** The macro ends. *)
From Verif Require Import Base Grammar PegSpec Target Compile WellFormed WfFacts CharClass Analysis AnalysisFacts PropertiesAnalysis Typing TypeRules SurfaceFacts RefFacts DepthFacts TypingSound
  TypingFit GenAgree TypingTop TypingVerdict TypingTotal TypingAnswer TypingFuel Front FrontFacts FrontSpec FrontSound PropertiesFront RType Oak.
Set Implicit Arguments. Unset Strict Implicit.
Open Scope string_scope. Open Scope nat_scope. Open Scope list_scope.

(** ---------------- the generator never lacks fuel ---------------- *)
Definition fine (A : Type) (r : cres A) : Prop := r <> CErr OutOfFuel.
Lemma fine_ok A (a : A) : fine (COk a). Proof. discriminate. Qed.
Lemma fine_bind A B (r : cres A) (k : A -> cres B) : fine r -> (forall a, fine (k a)) -> fine (cbind r k).
Proof. intros H K. destruct r as [a|e]; cbn [cbind]; [apply K|]. intros X. apply H. congruence. Qed.
#[local] Hint Resolve fine_ok : core.
Lemma next_fine x : fine (next_free_var x). Proof. unfold next_free_var. destruct (rev (frees x)); discriminate. Qed.
Lemma skip_fine n x : fine (next_free_var_skip n x). Proof. unfold next_free_var_skip. destruct (nth_error _ n); discriminate. Qed.
Lemma pops_fine n : forall x, fine (pop_vars n x).
Proof. induction n as [|n IH]; intros x; cbn [pop_vars]; auto. apply fine_bind; [apply next_fine|]. intros [v x1]. apply fine_bind; [apply IH|]. intros [vs x2]. auto. Qed.
Lemma close_fine s x : fine (close_scope s x). Proof. unfold close_scope. destruct (frees x); discriminate. Qed.
Lemma popm_fine x : fine (pop_mut x). Proof. unfold pop_mut. destruct (muts x); discriminate. Qed.
Lemma cond_fine c : fine (compile_condition c). Proof. unfold compile_condition. destruct c; discriminate. Qed.
Lemma mode_fine G m i : fine (eff_mode G m i). Proof. unfold eff_mode. destruct m; auto. destruct (ty_of G i); discriminate. Qed.

Section Fuel.
Variable G : grammar.
Hypothesis DOWN : forall i e, expr_of G i = Some e -> Forall (fun j => j < i) (children e).
Lemma seq_fine comp l : (forall j s x, In j l -> fine (comp j s x)) -> forall s x, fine (compile_seq comp l s x).
Proof.
  induction l as [|i l IH]; intros H s x; cbn [compile_seq]; auto. apply fine_bind; [apply IH; intros; apply H; right; assumption|]. intros [s1 x1].
  apply fine_bind; [apply H; left; reflexivity|]. intros [c x2]. auto.
Qed.
Lemma branches_fine comp sc bf s l : (forall j s x, In j l -> fine (comp j s x)) -> forall x, fine (compile_branches comp sc bf s l x).
Proof.
  induction l as [|i l IH]; intros H x; cbn [compile_branches]; [discriminate|]. destruct l as [|i2 l].
  - apply fine_bind; [apply popm_fine|]. intros x1. apply fine_bind; [apply H; left; reflexivity|]. intros [c x2]. auto.
  - apply fine_bind; [apply H; left; reflexivity|]. intros [c x1]. apply fine_bind; [apply IH; intros; apply H; right; assumption|]. intros [cs x2]. auto.
Qed.
Lemma compile_fine : forall fuel m i s x, i < fuel -> fine (compile G fuel m i s x).
Proof.
  induction fuel as [|k IH]; intros m0 i s x L; [lia|]. cbn [compile]. apply fine_bind; [apply mode_fine|]. intros m.
  destruct (expr_of G i) as [e|] eqn:Ee; [|discriminate]. pose proof (DOWN Ee) as D. rewrite Forall_forall in D.
  assert (C : forall m j s x, In j (children e) -> fine (compile G k m j s x)) by (intros m1 j s1 x1 Ij; apply IH; specialize (D j Ij); lia).
  assert (C1 : forall m j s x, In j (children e) -> fine ('(c, x1) <-- compile G k m j s x ;; COk (c, with_ncomb x1 (S (ncomb x1))))).
  { intros m1 j s1 x1 Ij. apply fine_bind; [apply C, Ij|]. intros [c x2]. auto. }
  destruct e as [l| |l|id|l|l|l|j|j|j|j|j|j b a|j t|j|j]; cbn [children] in C, C1; auto.
  all: try (apply seq_fine; auto; fail).
  all: try (destruct m; auto; fail).
  all: try (apply C; left; reflexivity).
  all: try (destruct m; auto; apply fine_bind; [first [apply next_fine | apply pops_fine | apply C1; left; reflexivity]|]; intros [? ?]; auto; fail).
  - apply fine_bind; [destruct m; auto; apply next_fine|]. intros [v x1]. apply fine_bind; [apply cond_fine|]. intros c. cbv zeta. destruct (next_mark x1). auto.
  - destruct (success_as_closure s x) as [s1 x1]. destruct (next_mark x1) as [mk x2]. destruct (next_branch x2) as [bf x3]. cbv zeta. apply fine_bind; [apply branches_fine; auto|].
    intros [bs x5]. destruct bs; [discriminate|auto].
  - destruct m.
    + apply fine_bind; [apply C1; left; reflexivity|]. intros [body x1]. auto.
    + apply fine_bind; [apply next_fine|]. intros [r x1]. destruct (open_scope _ x1) as [sc x2]. apply fine_bind; [apply C1; left; reflexivity|]. intros [body x4].
      apply fine_bind; [apply close_fine|]. intros x5. destruct (repeat_code 0 s CFailure body x5). auto.
  - destruct m.
    + apply fine_bind; [apply C1; left; reflexivity|]. intros [body x1]. auto.
    + apply fine_bind; [apply next_fine|]. intros [r x1]. destruct (open_scope _ x1) as [sc x2]. apply fine_bind; [apply C1; left; reflexivity|]. intros [body x4].
      apply fine_bind; [apply close_fine|]. intros x5. destruct (repeat_code 1 s CFailure body x5). auto.
  - destruct m.
    + apply fine_bind; [apply C1; left; reflexivity|]. intros [body x1]. auto.
    + apply fine_bind; [apply next_fine|]. intros [r x1]. destruct (open_scope _ x1) as [sc x2]. apply fine_bind; [apply C1; left; reflexivity|]. intros [body x4].
      apply fine_bind; [apply close_fine|]. intros x5. destruct (optional_code s body x5). auto.
  - destruct m; [|discriminate]. destruct (next_mark x) as [mk x1]. apply fine_bind; [apply C1; left; reflexivity|]. intros [body x2]. auto.
  - destruct m; [|discriminate]. destruct (next_mark x) as [mk x1]. apply fine_bind; [apply C1; left; reflexivity|]. intros [body x2]. auto.
  - destruct m; [apply C; left; reflexivity|]. apply fine_bind; [apply next_fine|]. intros [r x1]. destruct (open_scope _ x1) as [sc x2]. apply fine_bind; [apply C1; left; reflexivity|].
    intros [c x3]. apply fine_bind; [apply close_fine|]. intros x4. auto.
  - destruct m; [apply C; left; reflexivity|]. destruct (next_mark x) as [lo x1]. apply fine_bind; [apply skip_fine|]. intros [r x2]. apply fine_bind; [apply C1; left; reflexivity|]. intros [c x3]. auto.
  - destruct m; [apply C; left; reflexivity|]. destruct (next_mark x) as [lo x1]. apply fine_bind; [apply skip_fine|]. intros [r x2]. apply fine_bind; [apply C1; left; reflexivity|]. intros [c x3]. auto.
Qed.
Hypothesis ROOT : forall rl, In rl (rules G) -> rexpr rl < length (exprs G).
Lemma rule_fine m rl : In rl (rules G) -> fine (gen_rule G m rl).
Proof.
  intros I0. pose proof (ROOT I0) as L. destruct m; cbn [gen_rule]; unfold gen_recognizer, gen_parser.
  - apply fine_bind; [apply compile_fine; unfold gen_fuel; lia|]. intros [c x]. auto.
  - destruct (ty_of G (rexpr rl)) as [t|]; [|discriminate]. destruct (ty_is_unit t); auto. destruct (open_scope _ new_ctx) as [sc x1].
    apply fine_bind; [apply compile_fine; unfold gen_fuel; lia|]. intros [c x2]. apply fine_bind; [apply close_fine|]. intros x3. auto.
Qed.
Lemma of_cres_fine A (r : cres A) : fine r -> of_cres r <> WLoop.
Proof. intros H. destruct r as [a|[]]; cbn; try discriminate. intros _. apply H. reflexivity. Qed.
Hypothesis TYPED : forall rl, In rl (rules G) -> exists t, parser_value G rl = WOk t.
Lemma rules_fine stream rs : incl rs (rules G) -> compile_rules stream G rs <> WLoop.
Proof.
  induction rs as [|rl rs IH]; intros SUB; cbn [compile_rules]; [discriminate|]. assert (I0 : In rl (rules G)) by (apply SUB; left; reflexivity).
  pose proof (of_cres_fine (rule_fine (m := Rec) I0)) as H1. pose proof (of_cres_fine (rule_fine (m := Par) I0)) as H2. cbn [gen_rule] in *.
  destruct (of_cres (gen_recognizer G rl)); cbn [wbind]; try congruence. destruct (of_cres (gen_parser G rl)); cbn [wbind]; try congruence.
  destruct (TYPED I0) as (t & ->). cbn [wbind].
  specialize (IH ltac:(intros y Hy; apply SUB; right; exact Hy)). destruct (compile_rules stream G rs); cbn [wbind]; congruence.
Qed.
End Fuel.

(** ---------------- the macro ends ---------------- *)
Section Ends.
Variables (rust_type : list tok -> option (string * list tok)) (rust_item : list tok -> option (rust_item * list tok)).
Variable return_type : string -> option string.
Variable generics : string -> string.
Hypothesis RT : reads rust_type.
Hypothesis RI : reads rust_item.
Local Notation oak := (oak rust_type rust_item return_type generics).
Local Notation env_of := (env_of return_type generics).

Lemma typed_down G ts : well_built G -> forall i e, expr_of (mkG (rules G) (exprs G ++ [ESpan 0]) ts) i = Some e -> Forall (fun j => j < i) (children e).
Proof.
  intros WB i e. unfold expr_of. cbn [exprs]. intros Ee. destruct (Nat.lt_ge_cases i (length (exprs G))) as [L|L].
  - rewrite nth_error_app1 in Ee by exact L. exact (wb_children WB Ee).
  - rewrite nth_error_app2 in Ee by exact L. destruct (i - length (exprs G)) as [|d] eqn:D; cbn in Ee; [|destruct d; discriminate]. injection Ee as <-. constructor; [|constructor].
    pose proof (some_expr WB). lia.
Qed.
Lemma typed_form E fuel G G' : type_inference E fuel G = WOk (Some G') -> exists ts, G' = mkG (rules G) (exprs G ++ [ESpan 0]) ts.
Proof.
  unfold type_inference. intros H. apply wbind_ok in H. destruct H as ([ts|] & _ & H); [|discriminate]. injection H as <-. exists ts. reflexivity.
Qed.
Lemma values_typed E fuel G G' : well_built G -> type_inference E fuel G = WOk (Some G') -> forall rl, In rl (rules G') -> exists t, parser_value G' rl = WOk t.
Proof.
  intros WB T rl I0. unfold parser_value. destruct (is_unit G' (rexpr rl)); [eexists; reflexivity|]. destruct (typed_form T) as (ts & Q).
  assert (I1 : In rl (rules G)) by (rewrite Q in I0; exact I0). pose proof (root_low WB I1) as L.
  destruct (@types_finite E fuel G G' WB T (rexpr rl) ltac:(lia)) as (t & C). exists t. refine (@compile_type_more G' _ _ _ _ _ C). rewrite Q. cbn [exprs]. rewrite app_length. lia.
Qed.
Lemma content_ends g E fuel G : well_built (shape g) -> type_inference E fuel (shape g) = WOk (Some G) -> compile_mod_content generics g G <> WLoop.
Proof.
  intros WB T. pose proof (values_typed WB T) as VT. destruct (typed_form T) as (ts & ->). clear T. unfold compile_mod_content.
  assert (X : compile_rules (stream_ty generics g) (mkG (rules (shape g)) (exprs (shape g) ++ [ESpan 0]) ts) (rules (shape g)) <> WLoop).
  { apply rules_fine; [exact (typed_down WB)| |exact VT|apply incl_refl]. intros rl I0. cbn [rules exprs] in *. rewrite app_length. pose proof (root_low WB I0). lia. }
  cbn [rules]. destruct (compile_rules _ _ _); cbn [wbind]; congruence.
Qed.
Theorem oak_ends ts : exists r N, r <> WLoop /\ forall fuel, N <= fuel -> oak fuel ts = r.
Proof.
  unfold oak. destruct (parse_grammar rust_type rust_item ts) as [fg| |] eqn:P.
  2: { exists (WOk None), 0. split; [discriminate|auto]. }
  2: { exfalso. exact (C38_terminates RT RI P). }
  destruct (C43_analysis_verdict (C38_parsed P)) as (r & N & M & V). destruct r as [g|].
  2: { exists (WOk None), N. split; [discriminate|]. intros fuel L. rewrite M by exact L. reflexivity. }
  assert (WB : well_built (shape g)) by (apply (C38_well_built P); exists N; exact M).
  set (B := (length (rules (shape g)) + 1) * S (length (exprs (shape g))) + S (S (length (exprs (shape g)))) + N).
  assert (NL : type_inference (env_of g B) B (shape g) <> WLoop) by (apply inference_stops; [exact WB|cbn [cmp_fuel Oak.env_of]; unfold B; lia|unfold B; lia]).
  destruct (type_inference (env_of g B) B (shape g)) as [[G'|]| |] eqn:TI; [| | |congruence].
  all: assert (SAME : forall fuel, B <= fuel -> type_inference (env_of g fuel) fuel (shape g) = type_inference (env_of g B) B (shape g))
    by (intros fuel L; apply inference_more_fuel; auto; congruence).
  - exists (wbind (compile_mod_content generics g G') (fun m => WOk (Some m))), B. split.
    + pose proof (content_ends WB TI) as K. destruct (compile_mod_content generics g G'); cbn [wbind]; congruence.
    + intros fuel L. rewrite M by (unfold B in L; lia). cbn [wbind]. rewrite SAME, TI by exact L. reflexivity.
  - exists (WOk None), B. split; [discriminate|]. intros fuel L. rewrite M by (unfold B in L; lia). cbn [wbind]. rewrite SAME, TI by exact L. reflexivity.
  - exists WPanic, B. split; [discriminate|]. intros fuel L. rewrite M by (unfold B in L; lia). cbn [wbind]. rewrite SAME, TI by exact L. reflexivity.
Qed.
End Ends.
