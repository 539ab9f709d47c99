(** The arena the front end builds. *)
From Coq Require Import Ascii Permutation.
From Verif Require Import Base Grammar CharClass Analysis Front.
Set Implicit Arguments. Unset Strict Implicit.
Open Scope nat_scope. Open Scope list_scope.

Lemma fbind_ok A B (r : fres A) (k : A -> fres B) b : fbind r k = FOk b -> exists a, r = FOk a /\ k a = FOk b.
Proof. destruct r; intros H; try discriminate. exists a. split; [reflexivity|exact H]. Qed.
Lemma FOk_inj A (a b : A) : FOk a = FOk b -> a = b. Proof. congruence. Qed.

(** The shapes of expression the front end produces. *)
Definition node_ok (es : list expr) (e : expr) : Prop :=
  match e with
  | ENT _ => False
  | EExt p => p <> []
  | ESeq l | EAlt l => 2 <= length l
  | EClass l => l <> []
  | EAsc _ t => t = IInvisible \/ t = IRegular TUnit \/ exists s, t = IRegular (TRust s)
  | ERange j => exists k, nth_error es j = Some (EAsc k (IRegular TUnit))
  | EAct _ _ f => exists p, f = ActPath p /\ p <> []
  | _ => True
  end.
Lemma node_ok_grow es n e : node_ok es e -> node_ok (es ++ n) e.
Proof. destruct e; cbn; auto. intros (k & H). exists k. rewrite nth_error_app1; [exact H|]. apply nth_error_Some. congruence. Qed.

(** [live]: the expressions not yet used as a sub-expression. *)
Record built (es : list expr) (live : list nat) : Prop := {
  bt_below : forall i e, nth_error es i = Some e -> Forall (fun j => j < i) (children e);
  bt_once : Permutation (live ++ flat_map children es) (seq 0 (length es));
  bt_nodes : forall i e, nth_error es i = Some e -> node_ok es e
}.
Definition grows (es es' : list expr) : Prop := exists n, es' = es ++ n.
Lemma grows_refl es : grows es es. Proof. exists []. now rewrite app_nil_r. Qed.
Lemma grows_trans a b c : grows a b -> grows b c -> grows a c.
Proof. intros (n & ->) (m & ->). exists (n ++ m). now rewrite app_assoc. Qed.
Lemma grows_one es e : grows es (es ++ [e]). Proof. now exists [e]. Qed.
#[global] Hint Resolve grows_refl grows_trans grows_one : front.

Lemma built_nil : built [] [].
Proof. split; [intros [|]; discriminate|reflexivity|intros [|]; discriminate]. Qed.
Lemma built_perm es l l' : Permutation l l' -> built es l -> built es l'.
Proof. intros P [A B C]. split; auto. rewrite <- P. exact B. Qed.
Lemma built_live es l i : built es l -> In i l -> i < length es.
Proof.
  intros B I. assert (In i (seq 0 (length es))) as H.
  { apply (Permutation_in _ (bt_once B)). apply in_or_app. now left. }
  apply in_seq in H. lia.
Qed.
Lemma built_alloc es e live : built es (children e ++ live) -> node_ok es e -> built (es ++ [e]) (length es :: live).
Proof.
  intros B NE. split.
  - intros i f H. destruct (Nat.lt_ge_cases i (length es)) as [L|L].
    + rewrite nth_error_app1 in H by exact L. exact (bt_below B H).
    + rewrite nth_error_app2 in H by exact L. destruct (i - length es) as [|[|]] eqn:D; cbn in H; try discriminate. injection H as <-.
      apply Forall_forall. intros j I. enough (j < length es) by lia. apply (built_live B). apply in_or_app. now left.
  - rewrite flat_map_app, app_length, Nat.add_comm. cbn [flat_map length Nat.add]. rewrite app_nil_r.
    rewrite seq_S. cbn [Nat.add]. pose proof (bt_once B) as P.
    change ((length es :: live) ++ flat_map children es ++ children e) with (length es :: (live ++ flat_map children es ++ children e)).
    rewrite <- Permutation_cons_append. constructor. rewrite <- P.
    rewrite <- !app_assoc. rewrite (Permutation_app_comm (children e)), <- !app_assoc. reflexivity.
  - intros i f H. destruct (Nat.lt_ge_cases i (length es)) as [L|L].
    + rewrite nth_error_app1 in H by exact L. apply node_ok_grow, (bt_nodes B H).
    + rewrite nth_error_app2 in H by exact L. destruct (i - length es) as [|[|]] eqn:D; cbn in H; try discriminate. injection H as <-.
      apply node_ok_grow, NE.
Qed.

Definition opt_list {A} (o : option A) : list A := match o with Some a => [a] | None => [] end.

Lemma path_nonempty ts p r : parse_path ts = Some (p, r) -> p <> [].
Proof.
  unfold parse_path. destruct (match eat _ ts with Some r => r | None => ts end) as [|t q]; [discriminate|].
  destruct (segment t); [|discriminate]. destruct (path_rest q) as [[l w]|]; [|discriminate]. intros H. injection H as <- <-. discriminate.
Qed.

Section Facts.
Variable rust_type : list tok -> option (string * list tok).
Variable rust_item : list tok -> option (rust_item * list tok).
Notation parse_type := (parse_type rust_type).
Notation parse_type' := (parse_type' rust_type).

Definition good_ty (t : ity) : Prop := t = IInvisible \/ t = IRegular TUnit \/ exists s, t = IRegular (TRust s).
Lemma parse_type_good ts t r b : parse_type ts = FOk (t, r, b) -> t = IInfer \/ good_ty t.
Proof.
  unfold Front.parse_type, good_ty. destruct (eat _ ts) as [q|]; [|intros H; injection H as <- _ _; now left].
  assert (R : match rust_type q with Some (s, r') => FOk (IRegular (TRust s), r', true) | None => FErr end = FOk (t, r, b) -> t = IInfer \/ good_ty t).
  { unfold good_ty. destruct (rust_type q) as [[s r']|]; [|discriminate]. intros H. injection H as <- _ _. right. right. right. now exists s. }
  unfold good_ty in R.
  destruct q as [|k q']; [exact R|]. destruct k; try exact R. destruct d; try exact R. destruct l as [|g0 g]; [intros H; injection H as <- _ _; auto|].
  destruct (eat _ (g0 :: g)); [intros H; injection H as <- _ _; auto|exact R].
Qed.
Lemma parse_type'_good ts t r : parse_type' ts = FOk (t, r) -> t = IInfer \/ good_ty t.
Proof.
  unfold Front.parse_type'. intros H. apply fbind_ok in H. destruct H as ([[t0 r0] b] & E & H). destruct b; [|discriminate].
  apply FOk_inj in H. injection H as <- <-. exact (parse_type_good E).
Qed.

(** A parsing function that keeps the invariant; the expressions it returns are live. *)
Definition keeps (A : Type) (ix : A -> list nat) (f : list tok -> list expr -> fres (A * list tok * list expr)) : Prop :=
  forall ts es live a ts' es', built es live -> f ts es = FOk (a, ts', es') -> built es' (ix a ++ live) /\ grows es es'.

Lemma alloced_ok A (f : nat -> A) e ts es a ts' es' : alloced f e ts es = FOk (a, ts', es') -> a = f (length es) /\ ts' = ts /\ es' = es ++ [e].
Proof. unfold alloced, alloc. intros H. apply FOk_inj in H. injection H as <- <- <-. auto. Qed.
Lemma alloced_keeps A (f : nat -> A) ix e ts es live a ts' es' : (forall i, ix (f i) = [i]) ->
  built es (children e ++ live) -> node_ok es e -> alloced f e ts es = FOk (a, ts', es') -> built es' (ix a ++ live) /\ grows es es'.
Proof.
  intros I B NE H. apply alloced_ok in H. destruct H as (-> & -> & ->). rewrite I. split; [apply built_alloc; assumption|apply grows_one].
Qed.
Definition one (i : nat) : list nat := [i].

Section Level.
Variable sub : list tok -> list expr -> fres (nat * list tok * list expr).
Hypothesis Hsub : keeps one sub.
Notation parse_rule_atom := (parse_rule_atom rust_type sub).
Notation parse_suffixed_expr := (parse_suffixed_expr rust_type sub).
Notation parse_prefixed_expr2 := (parse_prefixed_expr2 rust_type sub).
Notation parse_prefixed_expr := (parse_prefixed_expr rust_type sub).
Notation parse_typed_expr := (parse_typed_expr rust_type sub).
Notation seq_loop := (seq_loop rust_type sub).
Notation parse_seq := (parse_seq rust_type sub).
Notation parse_spanned_expr := (parse_spanned_expr rust_type sub).
Notation choice_loop := (choice_loop rust_type sub).
Notation choice_level := (choice_level rust_type sub).

Lemma ret_keeps A (ix : A -> list nat) (es : list expr) live a a0 (ts ts' : list tok) (es' : list expr) : built es (ix a0 ++ live) ->
  FOk (a0, ts, es) = FOk (a, ts', es') -> built es' (ix a ++ live) /\ grows es es'.
Proof. intros B H. apply FOk_inj in H. injection H as <- <- <-. split; [exact B|apply grows_refl]. Qed.

Lemma tail_keeps : keeps opt_list (atom_tail rust_type).
Proof.
  intros ts es live o ts' es' B. unfold Front.atom_tail. destruct (parse_path ts) as [[p r]|] eqn:P.
  - destruct (peek_rule_lhs _ ts); [apply ret_keeps, B|]. apply alloced_keeps; [reflexivity|exact B|exact (path_nonempty P)].
  - assert (END : (if peek ["."; "."]%char ts then FErr else FOk (None, ts, es)) = FOk (o, ts', es') -> built es' (opt_list o ++ live) /\ grows es es')
      by (destruct (peek _ ts); [discriminate|apply ret_keeps, B]).
    destruct ts as [|t r]; [exact END|]. destruct t; try exact END. destruct d; try exact END.
    destruct l as [|[] [|]]; try discriminate. intros H. apply fbind_ok in H. destruct H as (ivs & E & H).
    revert H. apply alloced_keeps; [reflexivity|exact B|exact (class_nonempty E)].
Qed.
Lemma group_keeps : keeps opt_list (atom_group rust_type sub).
Proof.
  intros ts es live o ts' es' B H. unfold Front.atom_group in H. pose proof (@tail_keeps ts es live o ts' es' B) as T.
  destruct ts as [|t r]; [exact (T H)|]. destruct t; try exact (T H). destruct d; try exact (T H).
  destruct l as [|g0 g]; [discriminate|]. apply fbind_ok in H. destruct H as ([[i g'] es1] & E & H).
  destruct (Hsub B E) as [B1 G1]. destruct g'; [|discriminate]. apply FOk_inj in H. injection H as <- <- <-. split; assumption.
Qed.
Lemma atom_keeps : keeps opt_list parse_rule_atom.
Proof.
  intros ts es live o ts' es' B H. unfold Front.parse_rule_atom in H.
  assert (M : match eat ["."]%char ts with Some r => alloced Some EAny r es | None => atom_group rust_type sub ts es end = FOk (o, ts', es') ->
    built es' (opt_list o ++ live) /\ grows es es').
  { destruct (eat ["."]%char ts); [apply alloced_keeps; [reflexivity|exact B|exact I]|apply group_keeps, B]. }
  destruct ts as [|t r]; [exact (M H)|]. destruct t; try exact (M H).
  revert H. apply alloced_keeps; [reflexivity|exact B|exact I].
Qed.

Lemma suffixed_keeps : keeps opt_list parse_suffixed_expr.
Proof.
  intros ts es live o ts' es' B H. apply fbind_ok in H. destruct H as ([[o1 ts1] es1] & E & H).
  destruct (atom_keeps B E) as [B1 G1]. destruct o1 as [i|].
  - assert (built es' (opt_list o ++ live) /\ grows es1 es') as [B2 G2].
    { destruct (eat ["*"]%char ts1); [revert H; apply alloced_keeps; [reflexivity|exact B1|exact I]|].
      destruct (eat ["+"]%char ts1); [revert H; apply alloced_keeps; [reflexivity|exact B1|exact I]|].
      destruct (eat ["?"]%char ts1); [revert H; apply alloced_keeps; [reflexivity|exact B1|exact I]|].
      revert H. apply ret_keeps, B1. }
    split; [exact B2|eauto with front].
  - destruct (@ret_keeps _ opt_list es1 live o None ts1 ts' es' B1 H). split; [assumption|eauto with front].
Qed.

Lemma prefixed2_keeps make : (forall i, children (make i) = [i]) -> (forall es i, node_ok es (make i)) -> keeps opt_list (parse_prefixed_expr2 make).
Proof.
  intros C NO ts es live o ts' es' B H. apply fbind_ok in H. destruct H as ([[o1 ts1] es1] & E & H).
  destruct (suffixed_keeps B E) as [B1 G1]. destruct o1 as [i|]; [|discriminate].
  destruct (@alloced_keeps _ Some opt_list (make i) ts1 es1 live o ts' es' (fun _ => eq_refl)) as [B2 G2].
  - rewrite C. exact B1.
  - apply NO.
  - exact H.
  - split; [exact B2|eauto with front].
Qed.
Lemma prefixed_keeps : keeps opt_list parse_prefixed_expr.
Proof.
  intros ts es live o ts' es' B H. unfold Front.parse_prefixed_expr in H.
  destruct (eat ["!"]%char ts); [exact (@prefixed2_keeps ENot (fun _ => eq_refl) (fun _ _ => I) _ _ _ _ _ _ B H)|].
  destruct (eat ["&"]%char ts); [exact (@prefixed2_keeps EAnd (fun _ => eq_refl) (fun _ _ => I) _ _ _ _ _ _ B H)|].
  exact (suffixed_keeps B H).
Qed.
Lemma typed_keeps : keeps opt_list parse_typed_expr.
Proof.
  intros ts es live o ts' es' B H. apply fbind_ok in H. destruct H as ([[o1 ts1] es1] & E & H).
  destruct (prefixed_keeps B E) as [B1 G1]. apply fbind_ok in H. destruct H as ([t ts2] & E2 & H).
  destruct (parse_type'_good E2) as [-> | GT].
  - destruct (@ret_keeps _ opt_list es1 live o o1 ts2 ts' es' B1 H). split; [assumption|eauto with front].
  - assert (H' : match o1 with None => FErr | Some i => alloced Some (EAsc i t) ts2 es1 end = FOk (o, ts', es'))
      by (destruct t; try exact H; destruct GT as [|[|[? ?]]]; discriminate).
    destruct o1 as [i|]; [|discriminate].
    destruct (@alloced_keeps _ Some opt_list (EAsc i t) ts2 es1 live o ts' es' (fun _ => eq_refl) B1 GT H') as [B2 G2].
    split; [exact B2|eauto with front].
Qed.
Lemma seq_loop_keeps fuel : forall acc ts es live l ts' es', built es (acc ++ live) -> seq_loop fuel acc ts es = FOk (l, ts', es') ->
  built es' (l ++ live) /\ grows es es'.
Proof.
  induction fuel as [|k IH]; intros acc ts es live l ts' es' B H; [discriminate|]. cbn [Front.seq_loop] in H.
  apply fbind_ok in H. destruct H as ([[o1 ts1] es1] & E & H). destruct (typed_keeps B E) as [B1 G1]. destruct o1 as [i|].
  - apply IH with (live := live) in H; [destruct H; split; [assumption|eauto with front]|].
    apply (built_perm (l := opt_list (Some i) ++ acc ++ live)); [|exact B1]. cbn [opt_list app]. rewrite <- app_assoc. cbn [app]. apply Permutation_middle.
  - destruct (@ret_keeps _ (fun l => l) es1 live l acc ts1 ts' es' B1 H). split; [assumption|eauto with front].
Qed.
Lemma seq_keeps fuel : keeps one (parse_seq fuel).
Proof.
  intros ts es live i ts' es' B H. apply fbind_ok in H. destruct H as ([[l ts1] es1] & E & H).
  destruct (@seq_loop_keeps fuel [] ts es live l ts1 es1 B E) as [B1 G1]. destruct l as [|a [|b l]]; [discriminate| |].
  - destruct (@ret_keeps _ one es1 live i a ts1 ts' es' B1 H). split; [assumption|eauto with front].
  - destruct (@alloced_keeps _ id one (ESeq (a :: b :: l)) ts1 es1 live i ts' es' (fun _ => eq_refl) B1) as [B2 G2]; [cbn; lia|exact H|].
    split; [exact B2|eauto with front].
Qed.
Lemma spanned_keeps fuel : keeps one (parse_spanned_expr fuel).
Proof.
  intros ts es live i ts' es' B H. unfold Front.parse_spanned_expr in H.
  destruct (eat ["."; "."; "."]%char ts) as [r|].
  - apply fbind_ok in H. destruct H as ([[j ts1] es1] & E & H). destruct (seq_keeps B E) as [B1 G1]. cbn [alloc] in H.
    assert (B2 : built (es1 ++ [EAsc j (IRegular TUnit)]) (length es1 :: live)) by (apply built_alloc; [exact B1|cbn; auto]).
    destruct (@alloced_keeps _ id one (ERange (length es1)) ts1 (es1 ++ [EAsc j (IRegular TUnit)]) live i ts' es' (fun _ => eq_refl) B2) as [B3 G3].
    + exists j. rewrite nth_error_app2, Nat.sub_diag by lia. reflexivity.
    + exact H.
    + split; [exact B3|]. eapply grows_trans; [exact G1|]. eapply grows_trans; [apply grows_one|exact G3].
  - destruct (eat ["."; "."]%char ts) as [r|]; [|exact (seq_keeps B H)].
    apply fbind_ok in H. destruct H as ([[j ts1] es1] & E & H). destruct (seq_keeps B E) as [B1 G1].
    destruct (@alloced_keeps _ id one (ESpan j) ts1 es1 live i ts' es' (fun _ => eq_refl) B1 I H) as [B2 G2]. split; [exact B2|eauto with front].
Qed.
Lemma action_keeps i ts es live j ts' es' : built es (i :: live) -> parse_semantic_action i ts es = FOk (j, ts', es') ->
  built es' (j :: live) /\ grows es es'.
Proof.
  intros B. unfold parse_semantic_action. destruct (eat [">"]%char ts) as [r|]; [|intros H; exact (@ret_keeps _ one es live j i ts ts' es' B H)].
  set (b := match r with TKw s :: r' => if String.eqb s "box" then (true, r') else (false, r) | _ => (false, r) end). destruct b as [boxed r'].
  destruct (parse_path r') as [[p q]|] eqn:P; [|discriminate]. intros H.
  exact (@alloced_keeps _ id one (EAct i boxed (ActPath p)) q es live j ts' es' (fun _ => eq_refl) B (ex_intro _ p (conj eq_refl (path_nonempty P))) H).
Qed.
Lemma choice_loop_keeps fuel sfuel : forall acc ts es live l ts' es', built es (acc ++ live) -> choice_loop fuel sfuel acc ts es = FOk (l, ts', es') ->
  built es' (l ++ live) /\ grows es es' /\ length acc < length l.
Proof.
  induction fuel as [|k IH]; intros acc ts es live l ts' es' B H; [discriminate|]. cbn [Front.choice_loop] in H.
  apply fbind_ok in H. destruct H as ([[i ts1] es1] & E & H). destruct (spanned_keeps B E) as [B1 G1].
  apply fbind_ok in H. destruct H as ([[j ts2] es2] & E2 & H). destruct (action_keeps B1 E2) as [B2 G2].
  assert (B3 : built es2 ((acc ++ [j]) ++ live)).
  { apply (built_perm (l := j :: acc ++ live)); [|exact B2]. rewrite <- app_assoc. cbn [app]. apply Permutation_middle. }
  destruct (eat ["/"]%char ts2) as [r|].
  - apply IH with (live := live) in H; [|exact B3]. destruct H as (H1 & H2 & H3). rewrite app_length in H3. cbn in H3.
    split; [assumption|split; [eauto with front|lia]].
  - apply FOk_inj in H. injection H as <- <- <-. split; [assumption|split; [eauto with front|rewrite app_length; cbn; lia]].
Qed.
Lemma level_keeps fuel : keeps one (choice_level fuel).
Proof.
  intros ts es live i ts' es' B H. apply fbind_ok in H. destruct H as ([[l ts1] es1] & E & H).
  destruct (@choice_loop_keeps fuel fuel [] ts es live l ts1 es1 B E) as (B1 & G1 & L). destruct l as [|a [|b l]]; [cbn in L; lia| |].
  - destruct (@ret_keeps _ one es1 live i a ts1 ts' es' B1 H). split; [assumption|eauto with front].
  - destruct (@alloced_keeps _ id one (EAlt (a :: b :: l)) ts1 es1 live i ts' es' (fun _ => eq_refl) B1) as [B2 G2]; [cbn; lia|exact H|].
    split; [exact B2|eauto with front].
Qed.
End Level.

Lemma choice_keeps fuel : forall depth, keeps one (parse_rule_choice rust_type depth fuel).
Proof.
  induction depth as [|d IH]; [intros ts es live i ts' es' B H; discriminate|]. apply level_keeps, IH.
Qed.
Lemma rule_keeps fuel : keeps (fun r => [rexpr r]) (parse_rule rust_type fuel).
Proof.
  intros ts es live rl ts' es' B H. unfold parse_rule in H. destruct ts as [|[] r]; try discriminate.
  apply fbind_ok in H. destruct H as ([t r1] & E & H). destruct (eat ["="]%char r1) as [r2|]; [|discriminate].
  apply fbind_ok in H. destruct H as ([[i ts1] es1] & E1 & H). destruct (choice_keeps B E1) as [B1 G1].
  destruct (parse_type'_good E) as [-> | GT].
  - destruct (@ret_keeps _ (fun r => [rexpr r]) es1 live rl (mkRule s i) ts1 ts' es' B1 H). split; [assumption|eauto with front].
  - assert (H' : alloced (fun b => mkRule s b) (EAsc i t) ts1 es1 = FOk (rl, ts', es'))
      by (destruct t; try exact H; destruct GT as [|[|[? ?]]]; discriminate).
    destruct (@alloced_keeps _ (fun b => mkRule s b) (fun r => [rexpr r]) (EAsc i t) ts1 es1 live rl ts' es' (fun _ => eq_refl) B1 GT H') as [B2 G2].
    split; [exact B2|eauto with front].
Qed.

Lemma blocks_keep fuel inner : forall ts g g', built (f_exprs g) (map rexpr (f_rules g)) ->
  parse_blocks rust_type rust_item fuel inner ts g = FOk g' -> built (f_exprs g') (map rexpr (f_rules g')).
Proof.
  induction fuel as [|k IH]; intros ts g g' B H; [discriminate|]. cbn [parse_blocks] in H.
  destruct ts as [|t ts]; [apply FOk_inj in H; subst; exact B|].
  apply fbind_ok in H. destruct H as ([at_ ts1] & E & H). cbn [f_exprs f_rules f_items f_attrs] in H.
  destruct (peek_rule_lhs rust_type ts1).
  - apply fbind_ok in H. destruct H as ([[rl ts2] es] & E2 & H). destruct (rule_keeps B E2) as [B2 _].
    apply IH in H; [exact H|]. cbn [f_exprs f_rules]. rewrite map_app. apply (built_perm (l := [rexpr rl] ++ map rexpr (f_rules g))); [|exact B2].
    apply Permutation_app_comm.
  - destruct (rust_item ts1) as [[it ts2]|]; [|discriminate]. apply IH in H; [exact H|exact B].
Qed.

Theorem grammar_built ts g : parse_grammar rust_type rust_item ts = FOk g -> built (f_exprs g) (map rexpr (f_rules g)).
Proof. unfold parse_grammar. apply blocks_keep. cbn. apply built_nil. Qed.
End Facts.
