(** The Rust types in the signatures of the generated parsers (src/liboak/back/compiler/rtype.rs). *)
From Verif Require Import Base Grammar PegSpec WellFormed Analysis AnalysisFacts Typing TypeRules SurfaceFacts RefFacts DepthFacts TypingSound TypingFit TypingTop TypingVerdict
  TypingTotal TypingAnswer TypingFuel.
Set Implicit Arguments. Unset Strict Implicit.
Open Scope string_scope. Open Scope nat_scope. Open Scope list_scope.

(** The types [TypeCompiler] can build (rtype.rs:48-71): [()], [char], [Vec<t>], [Option<t>], [(t1, .., tn)], and the
    types copied from the grammar. *)
Inductive rty := RTUnit | RTChar | RTVec (t : rty) | RTOption (t : rty) | RTTuple (l : list rty) | RTRust (s : string).

Fixpoint wmap (A B : Type) (f : A -> wres B) (l : list A) : wres (list B) :=
  match l with [] => WOk [] | a :: l' => wbind (f a) (fun b => wbind (wmap f l') (fun bs => WOk (b :: bs))) end.

(** rtype.rs:37-46, with [unit_type] 48-50, [tuple_type] 52-57, [atom_type] 59-61, [list_type] 63-66, [optional_type] 68-71.
    The recursion goes through the type table: [WLoop] when the fuel is exhausted; [WPanic]: index out of bounds. *)
Fixpoint compile_type (fuel : nat) (G : grammar) (i : nat) {struct fuel} : wres rty :=
  match fuel with
  | 0 => WLoop
  | S k =>
      match ty_of G i with
      | None => WPanic
      | Some TUnit => WOk RTUnit
      | Some TAtom => WOk RTChar
      | Some (TList j) => wbind (compile_type k G j) (fun t => WOk (RTVec t))
      | Some (TOptional j) => wbind (compile_type k G j) (fun t => WOk (RTOption t))
      | Some (TRust s) => WOk (RTRust s)
      | Some (TTuple js) => wbind (wmap (compile_type k G) js) (fun ts => WOk (RTTuple ts))
      end
  end.

(** ---------------- the types of an accepted grammar are finite ---------------- *)
Lemma final_table E fuel G G' : well_built G -> type_inference E fuel G = WOk (Some G') ->
  exists T, length T = S (length (exprs G)) /\ (forall i t, nth_error T i = Some t -> exists u, ty_of G' i = Some u /\ reduce_final t = WOk u)
    /\ (forall i t, nth_error T i = Some t -> settledb t = true) /\ W (igrammar G) T.
Proof.
  intros WB H0. set (B := fuel + cmp_fuel E + (length (rules G) + 1) * S (length (exprs G)) + S (S (length (exprs G)))).
  set (E' := mkEnv (ret_of E) (span_ty E) (range_ty E) B).
  assert (H : type_inference E' B G = WOk (Some G')).
  { rewrite <- H0. apply inference_more_fuel; try reflexivity; [cbn [cmp_fuel E']; unfold B; lia|unfold B; lia|congruence]. }
  assert (HC : S (length (exprs G)) < cmp_fuel E') by (cbn [cmp_fuel E']; unfold B; lia).
  assert (LF : (length (rules G) + 1) * S (length (exprs G)) <= B) by (unfold B; lia). clearbody E' B. clear H0 fuel E.
  destruct (infer_inv H) as (st1 & st2 & st3 & out & H1 & E1 & H2 & H3 & E3 & H4 & _ & ->).
  destruct (inferred_settled WB H1 H2 H3 E3) as [LN ST]. exists (tys st3). split; [exact LN|]. split; [intros i t Et; exact (proj2 (reduce_finals_at H4) i t Et)|]. split; [exact ST|].
  destruct (TypingAnswer.start HC) as [W0 SP0]. destruct (blank_inv E' (ig_blank G E')) as [I0 _].
  destruct (@surface_total (igrammar G) E' (ig_typable WB) (own G) (ig_owned WB) ltac:(rewrite ig_len; exact HC) True (fun _ _ => True) (fun _ _ => True)
    ltac:(auto) ltac:(auto) ltac:(auto) ltac:(auto) ltac:(auto) ltac:(auto) B (rules_fuel HC LF) (rules (igrammar G)) (mkT (itable G E') false) (incl_refl _) I0 W0
    ltac:(rewrite ig_len; exact SP0) I) as [(st1' & Q1 & W1 & SP1)|[Q1 _]]; [|unfold surface in H1; congruence].
  assert (st1' = st1) as -> by (unfold surface in H1; congruence).
  destruct (@surface_ok (igrammar G) E' (ig_typable WB) (own G) (ig_owned WB) B (rules (igrammar G)) (mkT (itable G E') false) st1 (incl_refl _) I0 Q1) as (_ & _ & _ & KN).
  assert (RK : roots_known (igrammar G) (tys st1)) by (intros rl Irl; exact (KN rl rl Irl (find_self (ig_forest WB) Irl))).
  destruct (@recs_total (igrammar G) (ig_typable WB) st1 W1 RK SP1) as (st2' & Q2 & D2). assert (st2' = st2) as -> by congruence.
  destruct (@depth_total (igrammar G) E' (ig_typable WB) (own G) (ig_owned WB) ltac:(rewrite ig_len; exact HC) B ltac:(rewrite ig_len; exact LF) st2 D2) as (st3' & Q3 & D3).
  assert (st3' = st3) as -> by congruence. exact (d_w D3).
Qed.

Lemma wmap_total A B (f : A -> wres B) l : Forall (fun a => exists b, f a = WOk b) l -> exists bs, wmap f l = WOk bs.
Proof. induction 1 as [|a l (b & Q) F (bs & IH)]; [exists []; reflexivity|]. exists (b :: bs). cbn [wmap]. rewrite Q. cbn [wbind]. rewrite IH. reflexivity. Qed.
Lemma wmap_ext A B (f g : A -> wres B) l bs : (forall a b, In a l -> f a = WOk b -> g a = WOk b) -> wmap f l = WOk bs -> wmap g l = WOk bs.
Proof.
  revert bs. induction l as [|a l IH]; intros bs H Q; [exact Q|]. cbn [wmap] in *. apply wbind_ok in Q. destruct Q as (b & Qa & Q). apply wbind_ok in Q. destruct Q as (bs' & Ql & Q).
  rewrite (H a b (or_introl eq_refl) Qa). cbn [wbind]. rewrite (IH bs' ltac:(intros; apply H; [right; assumption|assumption]) Ql). exact Q.
Qed.
Lemma compile_type_more G : forall k k' i t, k <= k' -> compile_type k G i = WOk t -> compile_type k' G i = WOk t.
Proof.
  induction k as [|k IH]; intros k' i t L H; [discriminate|]. destruct k' as [|k']; [lia|]. cbn [compile_type] in *.
  destruct (ty_of G i) as [[| |j|j|js|s]|]; try exact H.
  - apply wbind_ok in H. destruct H as (u & Q & H). rewrite (IH k' j u ltac:(lia) Q). exact H.
  - apply wbind_ok in H. destruct H as (u & Q & H). rewrite (IH k' j u ltac:(lia) Q). exact H.
  - apply wbind_ok in H. destruct H as (u & Q & H). rewrite (wmap_ext (f := compile_type k G) (g := compile_type k' G) (l := js) (bs := u)); [exact H| |exact Q].
    intros a b _. apply IH. lia.
Qed.
Lemma compile_type_det G k k' i t t' : compile_type k G i = WOk t -> compile_type k' G i = WOk t' -> t = t'.
Proof.
  intros H H'. pose proof (@compile_type_more G k (k + k') i t ltac:(lia) H) as Q. pose proof (@compile_type_more G k' (k + k') i t' ltac:(lia) H') as Q'. congruence.
Qed.

Theorem types_finite E fuel G G' : well_built G -> type_inference E fuel G = WOk (Some G') ->
  forall i, i <= length (exprs G) -> exists t, compile_type (S (length (exprs G))) G' i = WOk t.
Proof.
  intros WB H i Li. destruct (final_table WB H) as (T & LN & SH & ST & HW). destruct (w_rank HW) as (rk & RK).
  assert (K : forall k j, j < length T -> rk j < k -> exists t, compile_type k G' j = WOk t).
  { induction k as [|k IH]; intros j Lj Rj; [lia|]. destruct (nth_error T j) as [w|] eqn:Ew; [|apply nth_error_None in Ew; lia].
    destruct (SH j w Ew) as (u & Eu & Q). destruct (RK j w Ew (ST j w Ew)) as [_ F]. cbn [compile_type]. rewrite Eu.
    pose proof (w_good HW Ew) as [GD _].
    assert (IH' : forall c, In c (refs w) -> exists t, compile_type k G' c = WOk t).
    { intros c Ic. rewrite Forall_forall in F, GD. destruct (GD c Ic) as (v & Ev & _). apply IH; [apply nth_error_Some; congruence|]. specialize (F c Ic). lia. }
    destruct w as [|r| | |[| |c|c|cs|s]]; cbn in Q; try discriminate Q; injection Q as <-; try (eexists; reflexivity); cbn [refs] in IH'.
    - destruct (IH' c (or_introl eq_refl)) as (t & ->). eexists. reflexivity.
    - destruct (IH' c (or_introl eq_refl)) as (t & ->). eexists. reflexivity.
    - destruct (wmap_total (f := compile_type k G') (l := cs)) as (bs & ->); [apply Forall_forall; exact IH'|]. eexists. reflexivity. }
  apply K; [lia|]. destruct (nth_error T i) as [w|] eqn:Ew; [|apply nth_error_None in Ew; lia]. destruct (RK i w Ew (ST i w Ew)) as [B _].
  pose proof (count_le T). lia.
Qed.
