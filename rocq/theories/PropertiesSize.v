(** Property theorems about the size of generated code (C40). *)
From Verif Require Import Base Grammar PegSpec Target Compile CompileShape GenTotal CodeSize WellFormed Analysis Typing TypingTop PropertiesTyping.
Set Implicit Arguments. Unset Strict Implicit.
Open Scope string_scope. Open Scope nat_scope. Open Scope list_scope.

(** C40, recognizers: at most proportional to the size of the rule times its nesting. *)
Theorem C40_recognizer_size : forall G rl f, gen_recognizer G rl = COk f ->
  let n := nodes G (gen_fuel G) (rexpr rl) in let h := height G (gen_fuel G) (rexpr rl) in
  func_size f <= n * (10 * h + 22).
Proof.
  intros G rl f H n h. unfold gen_recognizer in H. apply cbind_ok in H. destruct H as ([c x] & E & H). apply COk_inj in H. subst f.
  pose proof (@compile_size G 0 h (fun _ => False) (fun _ _ A => False_ind _ A) (fun _ A => False_ind _ A) (gen_fuel G) Rec Tail (rexpr rl) _ _ _ _ I ltac:(discriminate) E (@calm_rec G (gen_fuel G) Tail (rexpr rl) ltac:(discriminate))) as B.
  unfold bounded, bonus, factor, limit in B. fold n h in B. unfold func_size. cbn [fclosures fbody].
  assert (F : fit 0 h Tail (CSuccess []) new_ctx h).
  { split; [cbn; lia|]. split; [cbn; lia|]. unfold limit. cbn [code_size length]. lia. }
  specialize (B F). cbn [closures new_ctx table_size map list_sum fold_right] in B.
  replace (10 * h + 22) with (2 * (1 + h + 0 + (4 + 0) * h) + 20) by lia. lia.
Qed.

(** Parsers; [ask]: the expressions whose value is asked for. *)
Lemma parser_size_asked G rl f w (ask : nat -> Prop) : (forall i e, ask i -> expr_of G i = Some e -> is_unit G i = false -> Forall ask (children e)) ->
  (forall i, ask i -> card G i <= w) -> ask (rexpr rl) -> coherent G -> 
  gen_parser G rl = COk f -> calm G (gen_fuel G) Par Tail (rexpr rl) = true ->
  let n := nodes G (gen_fuel G) (rexpr rl) in let h := height G (gen_fuel G) (rexpr rl) in
  func_size f <= 1 + n * (10 * S h * S w + 12).
Proof.
  intros ASK HW AR HC H CM n h. unfold gen_parser in H. destruct (ty_of G (rexpr rl)) as [t|]; [|discriminate].
  destruct (ty_is_unit t). { apply COk_inj in H. subst f. unfold func_size. cbn. lia. }
  destruct (open_scope (card G (rexpr rl)) new_ctx) as [sc x1] eqn:Eo.
  apply cbind_ok in H. destruct H as ([c x] & E & H). apply cbind_ok in H. destruct H as (x3 & E3 & H). apply COk_inj in H. subst f.
  pose proof (@compile_size G w h ask ASK HW (gen_fuel G) Par Tail (rexpr rl) _ _ _ _ HC (fun _ => AR) E CM) as B.
  unfold bounded, bonus, factor, limit in B. fold n h in B. unfold func_size. cbn [fclosures fbody].
  apply close_scope_ok in E3. destruct E3 as [_ ->]. cbn [closures restore_scope with_ncomb with_muts with_frees].
  pose proof (open_frees Eo) as Lf. apply pair_inj in Eo. destruct Eo as [_ Eo]. pose proof (HW (rexpr rl) AR) as Hw.
  assert (F : fit w h Tail (CSuccess (frees x1)) x1 h).
  { split; [lia|]. split; [subst x1; cbn; lia|]. unfold limit. cbn [code_size]. rewrite Lf. lia. }
  specialize (B F). assert (Cx : closures x1 = []) by (subst x1; reflexivity). rewrite Cx in B. cbn [table_size map list_sum fold_right] in B.
  assert (n * (2 * (1 + h + w + (4 + w) * h) + 20) <= n * (10 * S h * S w + 12)) by (apply Nat.mul_le_mono_l; nia). lia.
Qed.
(** C40, parsers, when no choice ends the operand of an action that other expressions follow: proportional to
    the size of the rule times its nesting times the number of values. *)
Theorem C40_parser_size_partial : forall G rl f w, coherent G -> (forall i, card G i <= w) ->
  gen_parser G rl = COk f -> calm G (gen_fuel G) Par Tail (rexpr rl) = true ->
  let n := nodes G (gen_fuel G) (rexpr rl) in let h := height G (gen_fuel G) (rexpr rl) in
  func_size f <= 1 + n * (10 * S h * S w + 12).
Proof.
  intros G rl f w HC HW H CM. refine (@parser_size_asked G rl f w (fun _ => True) _ _ I HC H CM); [intros; apply Forall_forall; auto|auto].
Qed.

(** Otherwise the size is exponential: [((. / .) > number) ((. / .) > number) ...], [k] times, has [4 * k + 1] nodes and
    its parser more than [2 ^ k]. *)
Definition bexpr (i : nat) : expr :=
  match i mod 4 with 0 | 1 => EAny | 2 => EAlt [i - 2; i - 1] | _ => EAct (i - 1) false (ActPath ["number"]) end.
Definition btype (i : nat) : ty := match i mod 4 with 3 => TRust "u32" | _ => TAtom end.
Definition acts (k : nat) : list nat := map (fun j => 4 * j + 3) (seq 0 k).
Definition blow (k : nat) : grammar :=
  mkG [mkRule "r" (4 * k)] (map bexpr (seq 0 (4 * k)) ++ [ESeq (acts k)]) (map btype (seq 0 (4 * k)) ++ [TTuple (acts k)]).

Lemma blow_expr k i : i < 4 * k -> expr_of (blow k) i = Some (bexpr i).
Proof.
  intros H. unfold expr_of, blow. cbn [exprs]. rewrite nth_error_app1 by (rewrite map_length, seq_length; exact H).
  rewrite nth_error_map, (nth_error_nth' (seq 0 (4 * k)) 0) by (rewrite seq_length; exact H). rewrite seq_nth by exact H. reflexivity.
Qed.
Lemma blow_root k : expr_of (blow k) (4 * k) = Some (ESeq (acts k)).
Proof. unfold expr_of, blow. cbn [exprs]. rewrite nth_error_app2; rewrite map_length, seq_length; [|lia]. rewrite Nat.sub_diag. reflexivity. Qed.
Lemma blow_type k i : i < 4 * k -> ty_of (blow k) i = Some (btype i).
Proof.
  intros H. unfold ty_of, blow. cbn [types]. rewrite nth_error_app1 by (rewrite map_length, seq_length; exact H).
  rewrite nth_error_map, (nth_error_nth' (seq 0 (4 * k)) 0) by (rewrite seq_length; exact H). rewrite seq_nth by exact H. reflexivity.
Qed.
Lemma blow_type_root k : ty_of (blow k) (4 * k) = Some (TTuple (acts k)).
Proof. unfold ty_of, blow. cbn [types]. rewrite nth_error_app2; rewrite map_length, seq_length; [|lia]. rewrite Nat.sub_diag. reflexivity. Qed.
Lemma blow_len k : length (exprs (blow k)) = S (4 * k).
Proof. unfold blow. cbn [exprs]. rewrite app_length, map_length, seq_length. cbn. lia. Qed.
Lemma acts_lt k j : In j (acts k) -> exists a, j = 4 * a + 3 /\ a < k.
Proof. intros H. apply in_map_iff in H. destruct H as (a & <- & Ha). apply in_seq in Ha. exists a. lia. Qed.
Lemma blow_card k i : i < 4 * k -> card (blow k) i = 1.
Proof. intros H. unfold card. rewrite blow_type by exact H. unfold btype. destruct (i mod 4) as [|[|[|[|]]]]; reflexivity. Qed.
Lemma blow_cases k i e : expr_of (blow k) i = Some e -> i < 4 * k /\ e = bexpr i \/ i = 4 * k /\ e = ESeq (acts k).
Proof.
  intros H. assert (L : i < S (4 * k)) by (rewrite <- blow_len; apply nth_error_Some; unfold expr_of in H; congruence).
  destruct (Nat.eq_dec i (4 * k)) as [-> | N]; [right|left]; [rewrite blow_root in H|rewrite blow_expr in H by lia]; split; try lia; congruence.
Qed.
Lemma mod_ge i r : i mod 4 = r -> r <= i.
Proof. intros <-. apply Nat.mod_le. lia. Qed.

Lemma blow_arena k : arena_ok (blow k).
Proof.
  constructor.
  - intros i e H. apply blow_cases in H. destruct H as [[L ->]|[-> ->]].
    + unfold bexpr. destruct (i mod 4) as [|[|[|r]]] eqn:E; cbn [children]; apply mod_ge in E; repeat (apply Forall_cons; [lia|]); apply Forall_nil.
    + cbn [children]. apply Forall_forall. intros j Hj. destruct (acts_lt Hj) as (a & -> & La). lia.
  - unfold blow. cbn [types exprs]. rewrite !app_length, !map_length. reflexivity.
  - intros i H. apply blow_cases in H. destruct H as [[_ H]|[_ H]]; [|discriminate].
    unfold bexpr in H. destruct (i mod 4) as [|[|[|r]]]; discriminate.
  - intros i H. apply blow_cases in H. destruct H as [[_ H]|[_ H]]; [|discriminate].
    unfold bexpr in H. destruct (i mod 4) as [|[|[|r]]]; discriminate.
  - intros rl [<-|[]]. rewrite blow_len. cbn. lia.
Qed.
Lemma blow_coherent k : coherent (blow k).
Proof.
  intros i e H _. apply blow_cases in H. destruct H as [[L ->]|[-> ->]].
  - unfold bexpr. destruct (i mod 4) as [|[|[|r]]] eqn:E; cbn [coh_expr]; try (apply blow_card, L).
    apply mod_ge in E. repeat (apply Forall_cons; [rewrite !blow_card by lia; reflexivity|]). apply Forall_nil.
  - cbn [coh_expr]. unfold card at 1. rewrite blow_type_root. cbn [ty_card].
    assert (S : forall l, (forall j, In j l -> In j (acts k)) -> length l = list_sum (map (card (blow k)) l)).
    { induction l as [|j l IH]; intros HI; [reflexivity|]. cbn [map length]. change (list_sum (?a :: ?b)) with (a + list_sum b).
      rewrite blow_card; [rewrite <- IH; [lia|]; intros; apply HI; right; assumption|].
      destruct (acts_lt (HI j (or_introl eq_refl))) as (a & -> & La). lia. }
    apply S. auto.
Qed.

(** Each block doubles what follows it. *)
Lemma block_doubles k a fuel s x c y : a < k -> compile (blow k) fuel Par (4 * a + 3) s x = COk (c, y) -> 2 * code_size s <= code_size c.
Proof.
  intros L H. destruct fuel as [|fuel]; [discriminate|]. cbn [compile] in H.
  assert (M : forall r, r < 4 -> (4 * a + r) mod 4 = r).
  { intros r Hr. rewrite Nat.add_comm, (Nat.mul_comm 4 a), Nat.mod_add by lia. apply Nat.mod_small, Hr. }
  assert (U : forall r, r < 4 -> eff_mode (blow k) Par (4 * a + r) = COk Par).
  { intros r Hr. unfold eff_mode. rewrite blow_type by lia. unfold btype. rewrite M by lia. destruct r as [|[|[|[|]]]]; reflexivity. }
  rewrite (U 3) in H by lia. cbn [cbind] in H. rewrite blow_expr in H by lia. unfold bexpr in H. rewrite M in H by lia.
  replace (4 * a + 3 - 1) with (4 * a + 2) in H by lia.
  apply cbind_ok in H. destruct H as ([r x1] & E1 & H). destruct (open_scope _ x1) as [sc x2] eqn:E2.
  apply cbind_ok in H. destruct H as ([body x4] & E3 & H). apply cbind_ok in E3. destruct E3 as ([body' x4'] & E3 & E4). apply COk_inj, pair_inj in E4. destruct E4 as [<- <-].
  apply cbind_ok in H. destruct H as (x5 & E5 & H). apply COk_inj, pair_inj in H. destruct H as [<- <-].
  assert (N2 : ncomb x2 = 0) by (apply pair_inj in E2; destruct E2 as [_ <-]; reflexivity).
  remember (CLetAct _ _ _ _ _ s) as s' eqn:Es'. assert (Ls : code_size s <= code_size s') by (subst s'; cbn; lia). clear Es' E1 E2 E5.
  destruct fuel as [|fuel]; [discriminate|]. cbn [compile] in E3. rewrite (U 2) in E3 by lia. cbn [cbind] in E3.
  rewrite blow_expr in E3 by lia. unfold bexpr in E3. rewrite M in E3 by lia.
  replace (4 * a + 2 - 2) with (4 * a + 0) in E3 by lia. replace (4 * a + 2 - 1) with (4 * a + 1) in E3 by lia.
  unfold success_as_closure in E3. rewrite N2 in E3. cbn [Nat.ltb Nat.leb next_mark next_branch compile_branches] in E3.
  apply cbind_ok in E3. destruct E3 as ([bs x6] & E & E3). apply cbind_ok in E. destruct E as ([b1 x7] & Eb1 & E).
  apply cbind_ok in E. destruct E as ([bs2 x8] & Eb2 & E). apply COk_inj, pair_inj in E. destruct E as [<- <-].
  apply cbind_ok in Eb2. destruct Eb2 as (x9 & _ & Eb2). apply cbind_ok in Eb2. destruct Eb2 as ([b2 x10] & Eb2 & E).
  apply COk_inj, pair_inj in E. destruct E as [<- <-]. apply COk_inj, pair_inj in E3. destruct E3 as [<- _].
  assert (A : forall r s x c y, r < 2 -> compile (blow k) fuel Par (4 * a + r) s x = COk (c, y) -> code_size s <= code_size c).
  { intros r0 s0 x0 c0 y0 Hr Q. destruct fuel as [|n]; [discriminate|]. cbn [compile] in Q. rewrite (U r0) in Q by lia. cbn [cbind] in Q.
    rewrite blow_expr in Q by lia. unfold bexpr in Q. rewrite M in Q by lia. destruct r0 as [|[|r0]]; [| |lia];
      apply cbind_ok in Q; destruct Q as ([v z] & _ & Q); apply COk_inj, pair_inj in Q; destruct Q as [<- _]; cbn; lia. }
  apply A in Eb1; [|lia]. apply A in Eb2; [|lia]. cbn [code_size choice_code] in *. lia.
Qed.
Lemma blocks_double k fuel l : (forall j, In j l -> exists a, j = 4 * a + 3 /\ a < k) -> forall s x c y,
  compile_seq (compile (blow k) fuel Par) l s x = COk (c, y) -> 2 ^ length l * code_size s <= code_size c.
Proof.
  induction l as [|j l IH]; intros HL s x c y H; cbn [compile_seq] in H.
  - apply COk_inj, pair_inj in H. destruct H as [<- _]. cbn. lia.
  - apply cbind_ok in H. destruct H as ([c1 x1] & E1 & H). apply cbind_ok in H. destruct H as ([c2 x2] & E2 & H).
    apply COk_inj, pair_inj in H. destruct H as [<- _]. apply IH in E1; [|intros; apply HL; right; assumption].
    destruct (HL j (or_introl eq_refl)) as (a & -> & La). apply block_doubles in E2; [|exact La].
    cbn [length Nat.pow]. lia.
Qed.
Lemma blow_nodes k : nodes (blow k) (gen_fuel (blow k)) (4 * k) = 4 * k + 1.
Proof.
  unfold gen_fuel. rewrite blow_len. remember (S (4 * k)) as n eqn:En. cbn [nodes]. rewrite blow_root. cbn [intervals children].
  assert (B : forall l, (forall j, In j l -> exists a, j = 4 * a + 3 /\ a < k) -> list_sum (map (nodes (blow k) n) l) = 4 * length l).
  { induction l as [|j l IH]; intros HL; [reflexivity|]. cbn [map length]. change (list_sum (?a :: ?b)) with (a + list_sum b).
    rewrite IH by (intros; apply HL; right; assumption). destruct (HL j (or_introl eq_refl)) as (a & -> & La).
    assert (M : forall r, r < 4 -> (4 * a + r) mod 4 = r).
    { intros r Hr. rewrite Nat.add_comm, (Nat.mul_comm 4 a), Nat.mod_add by lia. apply Nat.mod_small, Hr. }
    destruct n as [|[|[|n]]]; [lia..|]. cbn [nodes]. rewrite blow_expr by lia. unfold bexpr. rewrite M by lia. cbn [children map intervals].
    replace (4 * a + 3 - 1) with (4 * a + 2) by lia. rewrite blow_expr by lia. unfold bexpr. rewrite M by lia. cbn [children map intervals].
    replace (4 * a + 2 - 2) with (4 * a + 0) by lia. replace (4 * a + 2 - 1) with (4 * a + 1) by lia. rewrite !blow_expr by lia. unfold bexpr. rewrite !M by lia.
    cbn [children map intervals list_sum fold_right]. lia. }
  rewrite B by apply acts_lt. unfold acts. rewrite map_length, seq_length. lia.
Qed.

Theorem C40_parser_size_refuted : forall k, exists G rl f, In rl (rules G) /\ arena_ok G /\ coherent G /\
  nodes G (gen_fuel G) (rexpr rl) = 4 * k + 1 /\ gen_parser G rl = COk f /\ 2 ^ k <= func_size f.
Proof.
  intros k. exists (blow k), (mkRule "r" (4 * k)). destruct (@parser_total _ (blow_arena k) (mkRule "r" (4 * k)) (@blow_coherent k) (or_introl eq_refl)) as [f E].
  exists f. split; [left; reflexivity|]. split; [apply blow_arena|]. split; [apply blow_coherent|]. split; [apply blow_nodes|]. split; [exact E|].
  unfold gen_parser in E. cbn [rexpr] in E. rewrite blow_type_root in E. cbn [ty_is_unit] in E.
  destruct (open_scope _ new_ctx) as [sc x1] eqn:Eo. apply cbind_ok in E. destruct E as ([c x] & E & H). apply cbind_ok in H.
  destruct H as (x3 & E3 & H). apply COk_inj in H. subst f. unfold gen_fuel in E. cbn [compile] in E.
  unfold eff_mode in E. rewrite blow_type_root in E. cbn [ty_is_unit cbind] in E. rewrite blow_root in E.
  apply blocks_double in E; [|apply acts_lt]. unfold acts in E at 1. rewrite map_length, seq_length in E. unfold func_size. cbn [fbody fclosures].
  cbn [code_size] in E. nia.
Qed.

(** These are the types inferred, and the grammar is accepted (here for three blocks). *)
Example blow_accepted : well_built (blow 3) /\ accepted (blow 3) /\ exists G', type_inference E0 50 (blow 3) = WOk (Some G') /\ firstn 13 (types G') = types (blow 3) /\ firstn 13 (exprs G') = exprs (blow 3).
Proof.
  split; [apply well_builtb_ok; vm_compute; reflexivity|]. split; [exists 50, 20; vm_compute; reflexivity|].
  eexists. split; [vm_compute; reflexivity|]. split; vm_compute; reflexivity.
Qed.

(** A rule meeting the condition: [r = "x" ((. / .) > f)]; the action ends the rule. *)
Definition szG : grammar := mkG [mkRule "r" 5]
  [EAny; EAny; EAlt [0; 1]; EStr [120%N]; EAct 2 false (ActPath ["f"]); ESeq [3; 4]]
  [TAtom; TAtom; TAtom; TUnit; TRust "u32"; TRust "u32"].
Example sz_calm : calm szG (gen_fuel szG) Par Tail 5 = true /\ calm (blow 2) (gen_fuel (blow 2)) Par Tail 8 = false.
Proof. split; reflexivity. Qed.
Example sz_size : exists f, gen_parser szG (mkRule "r" 5) = COk f /\ func_size f <= 1 + 6 * (10 * 5 * 2 + 12).
Proof.
  destruct (gen_parser szG (mkRule "r" 5)) as [f|] eqn:E; [|discriminate E]. exists f. split; [reflexivity|].
  refine (@C40_parser_size_partial szG (mkRule "r" 5) f 1 _ _ E eq_refl).
  - intros i e H U. do 6 (destruct i as [|i]; [injection H as <-; cbn; repeat constructor; discriminate U|]). destruct i; discriminate H.
  - intros i. unfold card. do 6 (destruct i as [|i]; [cbn; lia|]). destruct i; cbn; lia.
Qed.
