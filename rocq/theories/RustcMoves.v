(** Which generated functions use a variable after it may have been moved (RustcCheck.v): a condition
    on the expressions of the grammar under which none does. *)
From Coq Require Import FinFun.
From Verif Require Import Base Grammar PegSpec Target Compile TargetFacts ScopeFacts CompileShape RustcCheck RustcRefs.
Set Implicit Arguments. Unset Strict Implicit.

(** ---------------- the condition ---------------- *)
Section Condition.
Variable G : grammar.

(** All values built by the expression are characters, read by [.] or a class of this rule. *)
Fixpoint chars_only (fuel : nat) (m : mode) (i : nat) : bool :=
  match fuel with
  | 0 => false
  | S n =>
    match mode_at G m i with
    | Rec => true
    | Par =>
      match expr_of G i with
      | Some (EAny | EClass _) => true
      | Some (ESeq l) | Some (EAlt l) => forallb (chars_only n Par) l
      | Some (EAsc j _) => chars_only n Par j
      | _ => false
      end
    end
  end.

(** [p]: something of the same scope follows the expression; [d]: what follows uses the values to the
    left; [left]: there are values to the left that are not characters. *)
Section Seq.
Variable co : nat -> bool.
Variable f : bool -> bool -> bool -> nat -> bool.
Fixpoint seq_single (p d left : bool) (l : list nat) : bool :=
  match l with
  | [] => true
  | [i] => f p d left i
  | i :: r => f true d left i && seq_single p d (left || negb (co i)) r
  end.
End Seq.
(** [single p d left i]: values to the left are used in one place only: a choice, which copies what
    follows it in all its branches, has none to its left, or copies nothing that uses them. *)
Fixpoint single (fuel : nat) (m : mode) (p d left : bool) (i : nat) : bool :=
  match fuel with
  | 0 => true
  | S n =>
    match expr_of G i with
    | None => true
    | Some e =>
      match e, mode_at G m i with
      | (EStr _ | EAny | EClass _ | ENT _ | EExt _), _ => true
      | ESeq l, m => seq_single (chars_only n m) (single n m) p d left l
      | EAlt l, m => negb (left && (d || p)) && forallb (single n m false d left) l
      | (EOpt j | EStar j | EPlus j), Rec | (ENot j | EAnd j), _ => single n Rec p false left j
      | (EOpt j | EStar j | EPlus j), Par => single n Par false true false j
      | EAct j _ _, Rec => single n Rec p d left j
      | EAct j _ _, Par => single n Par false true left j
      | (EAsc j _ | ESpan j | ERange j), m => single n m p d left j
      end
    end
  end.
Definition rule_moves (rl : rule) : bool :=
  if is_unit G (rexpr rl) then true else single (gen_fuel G) Par false true false (rexpr rl).
End Condition.

(** ---------------- characters ---------------- *)
Definition table_chars (cl : ctable) : list name := flat_map (fun k => char_names (kbody (snd k))) cl.
Definition all_chars (c : code) (y : ctx) : list name := char_names c ++ table_chars (closures y).

Lemma table_chars_le x y : ctx_le x y -> incl (table_chars (closures x)) (table_chars (closures y)).
Proof. intros L. destruct (le_table L) as (n & -> & _). unfold table_chars. rewrite flat_map_app. apply incl_appl, incl_refl. Qed.
Lemma choice_chars bf mk bs : char_names (choice_code bf mk bs) = flat_map char_names bs.
Proof. induction bs as [|b bs IH]; [reflexivity|]. cbn. rewrite IH, app_nil_r. reflexivity. Qed.

Ltac inc := let n := fresh in let H := fresh in intros n H;
  repeat (rewrite in_app_iff in * || cbn [In] in * ); intuition (subst; auto).

Section Chars.
Variable G : grammar.

Definition embeds (comp : nat -> code -> ctx -> cres (code * ctx)) : Prop :=
  forall i s x c y, comp i s x = COk (c, y) -> incl (all_chars s x) (all_chars c y).

Lemma seq_embeds comp : embeds comp -> forall l s x c y, compile_seq comp l s x = COk (c, y) -> incl (all_chars s x) (all_chars c y).
Proof.
  intros HX. induction l as [|i l IH]; intros s x c y H.
  - cbn [compile_seq] in H. apply COk_inj, pair_inj in H. destruct H as [<- <-]. apply incl_refl.
  - cbn [compile_seq] in H. apply cbind_ok in H. destruct H as ([s1 x1] & E1 & H).
    apply cbind_ok in H. destruct H as ([c2 x2] & E2 & H). apply COk_inj, pair_inj in H. destruct H as [<- <-].
    eapply incl_tran; [exact (IH _ _ _ _ E1)|]. exact (HX _ _ _ _ _ E2).
Qed.
Lemma branches_embed comp m : shape_ih G comp m -> embeds comp -> forall l sc bf s x bs y, compile_branches comp sc bf s l x = COk (bs, y) ->
  ctx_le x y /\ incl (char_names s ++ table_chars (closures x)) (flat_map char_names bs ++ table_chars (closures y)).
Proof.
  intros HS HX. induction l as [|i l IH]; intros sc bf s x bs y H; [discriminate|]. destruct l as [|j l].
  - cbn [compile_branches] in H. apply cbind_ok in H. destruct H as (x1 & Ep & H).
    apply pop_mut_ok in Ep. destruct Ep as [_ Ep].
    apply cbind_ok in H. destruct H as ([c y'] & Ec & H). apply COk_inj, pair_inj in H. destruct H as [<- ->].
    pose proof (HX _ _ _ _ _ Ec) as K. pose proof (sh_le (HS _ _ _ _ _ Ec)) as L. rewrite Ep in K, L. unfold all_chars in K. cbn [closures restore_scope with_ncomb with_muts with_frees flat_map app] in *.
    rewrite app_nil_r. split; [|exact K]. eapply ctx_le_trans; [|exact L]. eapply ctx_le_trans; [apply restore_scope_le|apply with_muts_le].
  - remember (j :: l) as jl eqn:Ejl. cbn [compile_branches] in H. rewrite Ejl in H. rewrite <- Ejl in H.
    apply cbind_ok in H. destruct H as ([c x1] & Ec & H). apply cbind_ok in H. destruct H as ([cs y'] & Es & H).
    apply COk_inj, pair_inj in H. destruct H as [<- ->]. destruct (IH _ _ _ _ _ _ Es) as [L2 K2].
    pose proof (HX _ _ _ _ _ Ec) as K1. pose proof (sh_le (HS _ _ _ _ _ Ec)) as L1. unfold all_chars in K1. cbn [char_names closures restore_scope with_ncomb with_muts with_frees flat_map] in *.
    assert (L : ctx_le x y).
    { eapply ctx_le_trans; [apply restore_scope_le|]. eapply ctx_le_trans; [exact L1|]. eapply ctx_le_trans; [apply with_ncomb_le|exact L2]. }
    split; [exact L|]. intros n Hn. specialize (K2 n). specialize (K1 n Hn). rewrite !in_app_iff in *. destruct K1; [auto|]. destruct K2; auto.
Qed.

Lemma optional_chars s body x c y : optional_code s body x = (c, y) -> char_names c = char_names body ++ char_names s /\ closures y = closures x.
Proof. intros H. apply pair_inj in H. destruct H as [<- <-]. auto. Qed.
Lemma repeat_chars k s body x c y : repeat_code k s CFailure body x = (c, y) -> char_names c = char_names body ++ char_names s /\ closures y = closures x.
Proof. intros H. unfold repeat_code in H. cbn [next_mark next_counter] in H. destruct (0 <? k); apply pair_inj in H; destruct H as [<- <-]; auto. Qed.

Lemma scope_le fuel e x r x1 sc x2 s body x4 x5 : coherent G ->
  next_free_var x = COk (r, x1) -> open_scope (card G e) x1 = (sc, x2) ->
  forall l, compile G fuel Par e s (with_muts x2 l) = COk (body, x4) ->
  close_scope sc (with_ncomb x4 (S (ncomb x4))) = COk x5 ->
  ctx_le x (with_muts x2 l) /\ ctx_le x4 x5 /\ ctx_le x x5 /\ closures (with_muts x2 l) = closures x /\ closures x5 = closures x4 /\ frees x4 = [] /\ frees x5 = frees x1.
Proof.
  intros HC Er Eo l Ec Ex. apply next_free_var_ok in Er. destruct Er as [F E1].
  pose proof (compile_shape (m := Par) HC Ec) as Sh. apply close_scope_ok in Ex. destruct Ex as [Fy Ex].
  pose proof (open_scope_le (card G e) x1) as Lo. rewrite Eo in Lo. cbn [snd] in Lo. apply pair_inj in Eo. destruct Eo as [Es E2].
  assert (L1 : ctx_le x (with_muts x2 l)).
  { eapply ctx_le_trans; [|apply with_muts_le]. eapply ctx_le_trans; [|exact Lo]. rewrite E1. apply with_frees_le. }
  assert (L2 : ctx_le x4 x5) by (rewrite Ex; eapply ctx_le_trans; [apply with_ncomb_le|apply restore_scope_le]).
  split; [exact L1|]. split; [exact L2|]. split; [eapply ctx_le_trans; [exact L1|]; eapply ctx_le_trans; [apply (sh_le Sh)|exact L2]|].
  split; [rewrite <- E2, E1; reflexivity|]. split; [rewrite Ex; reflexivity|]. split; [exact Fy|]. rewrite Ex, <- Es. reflexivity.
Qed.

Lemma compile_embeds fuel : forall m, cohm G m -> embeds (compile G fuel m).
Proof.
  induction fuel as [|fuel IH]; intros m0 HC i s x c y H; [discriminate|].
  cbn [compile] in H. apply cbind_ok in H. destruct H as (m & Em & H).
  assert (HM : cohm G m) by (destruct m; [exact I|destruct (eff_par Em) as [-> _]; exact HC]).
  destruct (expr_of G i) as [e|] eqn:Ee; [|discriminate].
  pose proof (IH m HM) as IHm. pose proof (IH Rec I) as IHr.
  assert (HSh : shape_ih G (compile G fuel m) m) by (intros ? ? ? ? ? K; eapply compile_shape; eassumption).
  assert (HSr : shape_ih G (compile G fuel Rec) Rec) by (intros ? ? ? ? ? K; eapply compile_shape; [exact I|eassumption]).
  destruct e as [lit| |cls|id|p|l|l|e|e|e|e|e|e bx f|e t|e|e].
  - apply COk_inj, pair_inj in H. destruct H as [<- <-]. unfold all_chars. cbn. inc.
  - destruct m.
    + apply COk_inj, pair_inj in H. destruct H as [<- <-]. unfold all_chars. cbn. inc.
    + apply cbind_ok in H. destruct H as ([v x1] & E & H). apply COk_inj, pair_inj in H. destruct H as [<- <-]. apply next_free_var_ok in E. destruct E as [F E].
      rewrite E. unfold all_chars. cbn. inc.
  - apply cbind_ok in H. destruct H as ([v x1] & E & H). apply cbind_ok in H. destruct H as (k & Ek & H). cbn [next_mark] in H.
    apply COk_inj, pair_inj in H. destruct H as [<- <-]. destruct m.
    + apply COk_inj, pair_inj in E. destruct E as [<- <-]. unfold all_chars. cbn. inc.
    + apply next_free_var_ok in E. destruct E as [F E]. rewrite E. unfold all_chars. cbn. inc.
  - destruct m.
    + apply COk_inj, pair_inj in H. destruct H as [<- <-]. unfold all_chars. cbn. inc.
    + apply cbind_ok in H. destruct H as ([vs x1] & E & H). apply COk_inj, pair_inj in H. destruct H as [<- <-]. apply pop_vars_ok in E. destruct E as (F & _ & E).
      rewrite E. unfold all_chars. cbn. inc.
  - destruct m.
    + apply COk_inj, pair_inj in H. destruct H as [<- <-]. unfold all_chars. cbn. inc.
    + apply cbind_ok in H. destruct H as ([vs x1] & E & H). apply COk_inj, pair_inj in H. destruct H as [<- <-]. apply pop_vars_ok in E. destruct E as (F & _ & E).
      rewrite E. unfold all_chars. cbn. inc.
  - exact (seq_embeds IHm H).
  - (* choice *)
    destruct (success_as_closure s x) as [s1 x1] eqn:Es. cbn [next_mark next_branch branch_uid prefix_uid mark_uid counter_uid closure_uid closures frees marks muts ncomb] in H.
    apply cbind_ok in H. destruct H as ([bs y'] & E & H). destruct bs as [|b r]; [discriminate|].
    apply COk_inj, pair_inj in H. destruct H as [<- <-].
    destruct (branches_embed HSh IHm E) as [L K]. unfold all_chars. cbn [char_names]. rewrite choice_chars. cbn [flat_map closures push_mut with_muts] in K.
    assert (X : incl (char_names s ++ table_chars (closures x)) (char_names s1 ++ table_chars (closures x1))).
    { unfold success_as_closure in Es. destruct (0 <? ncomb x); apply pair_inj in Es; destruct Es as [<- <-]; [|apply incl_refl]. cbn [closures char_names]. unfold table_chars. rewrite flat_map_app. cbn. inc. }
    eapply incl_tran; [exact X|]. cbn [closures] in K. intros n Hn. specialize (K n Hn). rewrite !in_app_iff in *. tauto.
  - destruct m.
    + apply cbind_ok in H. destruct H as ([body x1'] & E & H). apply cbind_ok in E. destruct E as ([body' x1] & E & E').
      apply COk_inj, pair_inj in E'. destruct E' as [-> <-]. apply COk_inj in H. apply repeat_chars in H. destruct H as [C0 C]. unfold all_chars. rewrite C0, C. cbn [closures with_ncomb].
      pose proof (table_chars_le (sh_le (HSr _ _ _ _ _ E))) as L. intros n Hn. specialize (L n). rewrite !in_app_iff in *. tauto.
    + apply cbind_ok in H. destruct H as ([r x1] & Er & H). destruct (open_scope (card G e) x1) as [sc x2] eqn:Eo.
      apply cbind_ok in H. destruct H as ([body x4'] & E & H). apply cbind_ok in E. destruct E as ([body' x4] & E & E').
      apply COk_inj, pair_inj in E'. destruct E' as [-> <-]. apply cbind_ok in H. destruct H as (x5 & Ec & H).
      destruct (repeat_code 0 s CFailure body x5) as [c6 x6] eqn:E6. apply COk_inj, pair_inj in H. destruct H as [<- <-]. apply repeat_chars in E6. destruct E6 as [C1 C2].
      destruct (scope_le HM Er Eo E Ec) as (_ & _ & L & _). apply table_chars_le in L. unfold all_chars. cbn [char_names]. rewrite C1, C2. intros n Hn. specialize (L n). rewrite !in_app_iff in *. tauto.
  - destruct m.
    + apply cbind_ok in H. destruct H as ([body x1'] & E & H). apply cbind_ok in E. destruct E as ([body' x1] & E & E').
      apply COk_inj, pair_inj in E'. destruct E' as [-> <-]. apply COk_inj in H. apply repeat_chars in H. destruct H as [C0 C]. unfold all_chars. rewrite C0, C. cbn [closures with_ncomb].
      pose proof (table_chars_le (sh_le (HSr _ _ _ _ _ E))) as L. intros n Hn. specialize (L n). rewrite !in_app_iff in *. tauto.
    + apply cbind_ok in H. destruct H as ([r x1] & Er & H). destruct (open_scope (card G e) x1) as [sc x2] eqn:Eo.
      apply cbind_ok in H. destruct H as ([body x4'] & E & H). apply cbind_ok in E. destruct E as ([body' x4] & E & E').
      apply COk_inj, pair_inj in E'. destruct E' as [-> <-]. apply cbind_ok in H. destruct H as (x5 & Ec & H).
      destruct (repeat_code 1 s CFailure body x5) as [c6 x6] eqn:E6. apply COk_inj, pair_inj in H. destruct H as [<- <-]. apply repeat_chars in E6. destruct E6 as [C1 C2].
      destruct (scope_le HM Er Eo E Ec) as (_ & _ & L & _). apply table_chars_le in L. unfold all_chars. cbn [char_names]. rewrite C1, C2. intros n Hn. specialize (L n). rewrite !in_app_iff in *. tauto.
  - destruct m.
    + apply cbind_ok in H. destruct H as ([body x1'] & E & H). apply cbind_ok in E. destruct E as ([body' x1] & E & E').
      apply COk_inj, pair_inj in E'. destruct E' as [-> <-]. apply COk_inj in H. apply optional_chars in H. destruct H as [C0 C]. unfold all_chars. rewrite C0, C. cbn [closures with_ncomb].
      pose proof (table_chars_le (sh_le (HSr _ _ _ _ _ E))) as L. intros n Hn. specialize (L n). rewrite !in_app_iff in *. tauto.
    + apply cbind_ok in H. destruct H as ([r x1] & Er & H). destruct (open_scope (card G e) x1) as [sc x2] eqn:Eo.
      apply cbind_ok in H. destruct H as ([body x4'] & E & H). apply cbind_ok in E. destruct E as ([body' x4] & E & E').
      apply COk_inj, pair_inj in E'. destruct E' as [-> <-]. apply cbind_ok in H. destruct H as (x5 & Ec & H).
      destruct (optional_code s body x5) as [c6 x6] eqn:E6. apply COk_inj, pair_inj in H. destruct H as [<- <-]. apply optional_chars in E6. destruct E6 as [C1 C2].
      destruct (scope_le HM Er Eo E Ec) as (_ & _ & L & _). apply table_chars_le in L. unfold all_chars. cbn [char_names]. rewrite C1, C2. intros n Hn. specialize (L n). rewrite !in_app_iff in *. tauto.
  - destruct m; [|discriminate]. apply cbind_ok in H. destruct H as ([body x2'] & E & H).
    apply cbind_ok in E. destruct E as ([body' x2] & E & E').
    apply COk_inj, pair_inj in E'. destruct E' as [-> <-]. apply COk_inj, pair_inj in H. destruct H as [<- <-].
    pose proof (table_chars_le (sh_le (HSr _ _ _ _ _ E))) as L. unfold all_chars. cbn [char_names closures with_ncomb] in *. intros n Hn. specialize (L n). cbn [app] in *. rewrite !in_app_iff in *. tauto.
  - destruct m; [|discriminate]. apply cbind_ok in H. destruct H as ([body x2'] & E & H).
    apply cbind_ok in E. destruct E as ([body' x2] & E & E').
    apply COk_inj, pair_inj in E'. destruct E' as [-> <-]. apply COk_inj, pair_inj in H. destruct H as [<- <-].
    pose proof (table_chars_le (sh_le (HSr _ _ _ _ _ E))) as L. unfold all_chars. cbn [char_names closures with_ncomb] in *. intros n Hn. specialize (L n). rewrite !in_app_iff in *. tauto.
  - destruct m; [exact (IHr _ _ _ _ _ H)|].
    apply cbind_ok in H. destruct H as ([r x1] & Er & H). destruct (open_scope (card G e) x1) as [sc x2] eqn:Eo.
    apply cbind_ok in H. destruct H as ([body x4'] & E & H). apply cbind_ok in E. destruct E as ([body' x4] & E & E').
    apply COk_inj, pair_inj in E'. destruct E' as [-> <-]. apply cbind_ok in H. destruct H as (x5 & Ec & H).
    apply COk_inj, pair_inj in H. destruct H as [<- <-].
    assert (W : x2 = with_muts x2 (muts x2)) by (destruct x2; reflexivity).
    pose proof (IHm _ _ _ _ _ E) as K. rewrite W in E. destruct (scope_le HM Er Eo E Ec) as (_ & _ & _ & C1 & C2 & _).
    unfold all_chars in *. rewrite C2. rewrite <- W in C1. rewrite C1 in K. exact K.
  - exact (IHm _ _ _ _ _ H).
  - destruct m; [exact (IHr _ _ _ _ _ H)|].
    destruct (next_mark x) as [lo x1] eqn:Ek. apply cbind_ok in H. destruct H as ([r0 x2] & Er & H).
    apply cbind_ok in H. destruct H as ([body x3'] & E & H). apply cbind_ok in E. destruct E as ([body' x3] & E & E').
    apply COk_inj, pair_inj in E'. destruct E' as [-> <-]. apply COk_inj, pair_inj in H. destruct H as [<- <-].
    apply pair_inj in Ek. destruct Ek as [_ E1]. apply next_free_var_skip_ok in Er. destruct Er as (a & b & F & Lb & E2).
    pose proof (IHm _ _ _ _ _ E) as K. rewrite E2, <- E1 in K. exact K.
  - destruct m; [exact (IHr _ _ _ _ _ H)|].
    destruct (next_mark x) as [lo x1] eqn:Ek. apply cbind_ok in H. destruct H as ([r0 x2] & Er & H).
    apply cbind_ok in H. destruct H as ([body x3'] & E & H). apply cbind_ok in E. destruct E as ([body' x3] & E & E').
    apply COk_inj, pair_inj in E'. destruct E' as [-> <-]. apply COk_inj, pair_inj in H. destruct H as [<- <-].
    apply pair_inj in Ek. destruct Ek as [_ E1]. apply next_free_var_skip_ok in Er. destruct Er as (a & b & F & Lb & E2).
    pose proof (IHm _ _ _ _ _ E) as K. rewrite E2, <- E1 in K. exact K.
Qed.

(** The variables of an expression that only builds characters are bound by patterns. *)
Lemma split_same (a b c d : list name) : a ++ b = c ++ d -> length b = length d -> a = c /\ b = d.
Proof.
  intros E L. assert (K : length a = length c) by (apply (f_equal (@length _)) in E; rewrite !app_length in E; lia).
  revert c E K. induction a as [|x a IH]; intros [|y c] E K; try discriminate; [auto|]. cbn in *. injection E as <- E. destruct (IH c E) as [-> ->]; [lia|auto].
Qed.
Lemma seq_chars comp m co : shape_ih G comp m -> embeds comp ->
  (forall i s x c y xs, comp i s x = COk (c, y) -> co i = true -> frees x = frees y ++ xs -> incl xs (all_chars c y)) ->
  forall l s x c y xs, compile_seq comp l s x = COk (c, y) -> forallb co l = true -> frees x = frees y ++ xs -> incl xs (all_chars c y).
Proof.
  intros HS HX HC. induction l as [|i l IH]; intros s x c y xs H Co F.
  - cbn [compile_seq] in H. apply COk_inj, pair_inj in H. destruct H as [<- <-].
    assert (xs = []) as ->; [|intros n []]. destruct xs; [reflexivity|]. apply (f_equal (@length _)) in F. rewrite app_length in F. cbn in F. lia.
  - cbn [compile_seq] in H. apply cbind_ok in H. destruct H as ([s1 x1] & E1 & H).
    apply cbind_ok in H. destruct H as ([c2 x2] & E2 & H). apply COk_inj, pair_inj in H. destruct H as [<- <-].
    cbn [forallb] in Co. apply andb_true_iff in Co. destruct Co as [Co1 Co2]. cbn [frees with_ncomb] in F.
    pose proof (compile_seq_shape HS E1) as Sh1. pose proof (HS _ _ _ _ _ E2) as Sh2.
    destruct (sh_frees Sh1) as (u & F1 & _), (sh_frees Sh2) as (v & F2 & _).
    assert (xs = v ++ u) as -> by (rewrite F1, F2, <- app_assoc in F; apply app_inv_head in F; congruence).
    apply incl_app; [exact (HC _ _ _ _ _ _ E2 Co1 F2)|]. eapply incl_tran; [exact (IH _ _ _ _ _ E1 Co2 F1)|]. exact (HX _ _ _ _ _ E2).
Qed.

Lemma compile_chars fuel : coherent G -> forall m i s x c y xs, compile G fuel m i s x = COk (c, y) ->
  chars_only G fuel m i = true -> frees x = frees y ++ xs -> (m = Rec -> xs = []) -> incl xs (all_chars c y).
Proof.
  intros HC. induction fuel as [|fuel IH]; intros m0 i s x c y xs H Co F HR; [discriminate|].
  assert (Sh0 : shape (ncard G m0 i) x y) by (eapply compile_shape; [|exact H]; destruct m0; [exact I|exact HC]).
  cbn [compile] in H. apply cbind_ok in H. destruct H as (m & Em & H). cbn [chars_only] in Co. rewrite (mode_at_eff Em) in Co.
  destruct m.
  { rewrite <- (ncard_eff Em) in Sh0. destruct (sh_frees Sh0) as (u & F1 & L1). cbn in L1. destruct u; [|discriminate].
    rewrite F1 in F. apply app_inv_head in F. subst xs. intros n []. }
  destruct (eff_par Em) as [-> Hu].
  destruct (expr_of G i) as [e|] eqn:Ee; [|discriminate]. pose proof (HC i e Ee Hu) as HE.
  assert (HSh : shape_ih G (compile G fuel Par) Par) by (intros ? ? ? ? ? K; eapply compile_shape; [|exact K]; exact HC).
  assert (HX : embeds (compile G fuel Par)) by (apply compile_embeds; exact HC).
  destruct e as [lit| |cls|id|p|l|l|e|e|e|e|e|e bx f|e t|e|e]; try discriminate Co.
  - apply cbind_ok in H. destruct H as ([v x1] & E & H). apply COk_inj, pair_inj in H. destruct H as [<- <-]. apply next_free_var_ok in E. destruct E as [F1 _].
    rewrite F1 in F. apply app_inv_head in F. subst xs. intros n [<-|[]]. left. reflexivity.
  - apply cbind_ok in H. destruct H as ([v x1] & E & H). apply cbind_ok in H. destruct H as (k & Ek & H). cbn [next_mark] in H.
    apply COk_inj, pair_inj in H. destruct H as [<- <-]. apply next_free_var_ok in E. destruct E as [F1 _]. cbn [frees] in F.
    rewrite F1 in F. apply app_inv_head in F. subst xs. intros n [<-|[]]. left. reflexivity.
  - refine (@seq_chars _ Par (chars_only G fuel Par) HSh HX _ _ _ _ _ _ _ H Co F). intros. eapply IH; try eassumption. discriminate.
  - destruct (success_as_closure s x) as [s1 x1] eqn:Es. cbn [next_mark next_branch branch_uid prefix_uid mark_uid counter_uid closure_uid closures frees marks muts ncomb] in H.
    apply cbind_ok in H. destruct H as ([bs y'] & E & H). destruct bs as [|b r]; [discriminate|].
    apply COk_inj, pair_inj in H. destruct H as [<- <-]. unfold all_chars. cbn [char_names].
    assert (X1 : frees x1 = frees x) by (unfold success_as_closure in Es; destruct (0 <? ncomb x); apply pair_inj in Es; destruct Es as [_ <-]; reflexivity).
    destruct (sh_frees Sh0) as (u & F1 & Lu). assert (u = xs) as -> by (rewrite F1 in F; apply app_inv_head in F; exact F).
    destruct l as [|j l]; [discriminate|]. cbn [forallb] in Co. apply andb_true_iff in Co. destruct Co as [Co _].
    cbn [coh_expr] in HE. inversion HE as [|? ? Hj HE']; subst. destruct l as [|k l].
    + cbn [compile_branches] in E. apply cbind_ok in E. destruct E as (z1 & Ep & E). apply pop_mut_ok in Ep. destruct Ep as [_ Ep].
      apply cbind_ok in E. destruct E as ([c1 y1] & Ec & E). apply COk_inj, pair_inj in E. destruct E as [E ->]. injection E as <- <-.
      eapply incl_tran; [|apply incl_app; [apply incl_appl, incl_appl, incl_refl|apply incl_appr, incl_refl]].
      refine (IH Par _ _ _ _ _ _ Ec Co _ _); [|discriminate]. rewrite Ep. cbn [frees with_muts restore_scope with_ncomb with_frees sc_frees save_scope push_mut]. rewrite X1. exact F.
    + remember (k :: l) as kl eqn:Ekl. cbn [compile_branches] in E. rewrite Ekl in E. rewrite <- Ekl in E.
      apply cbind_ok in E. destruct E as ([c1 z1] & Ec & E). apply cbind_ok in E. destruct E as ([cs y1] & Es' & E).
      apply COk_inj, pair_inj in E. destruct E as [E ->]. injection E as <- <-.
      destruct (branches_embed HSh HX Es') as [L _]. apply table_chars_le in L. cbn [closures with_ncomb] in L.
      eapply incl_tran; [|apply incl_app; [apply incl_appl, incl_appl, incl_refl|apply incl_appr, L]].
      pose proof (HSh _ _ _ _ _ Ec) as Sh1. destruct (sh_frees Sh1) as (v & F2 & Lv).
      cbn [frees with_muts restore_scope with_ncomb with_frees sc_frees save_scope push_mut] in F2. cbn [ncard] in Lv, Lu.
      assert (frees z1 = frees y' /\ v = xs) as [Fz ->].
      { rewrite X1, F in F2. symmetry in F2. apply split_same in F2; [exact F2|]. congruence. }
      refine (IH Par _ _ _ _ _ _ Ec Co _ _); [|discriminate]. exact F2.
  - refine (IH Par _ _ _ _ _ _ H Co F _). discriminate.
Qed.
End Chars.

(** ---------------- moves ---------------- *)
Lemma mem_drop n x l : In n (drop x l) <-> In n l /\ n <> x.
Proof.
  unfold drop. rewrite filter_In. split; intros [A B]; (split; [exact A|]).
  - intros ->. rewrite name_eqb_refl in B. discriminate.
  - destruct (name_eqb x n) eqn:E; [|reflexivity]. apply name_eqb_eq in E. congruence.
Qed.
Lemma mem_drops n xs : forall l, In n (drops xs l) <-> In n l /\ ~ In n xs.
Proof.
  induction xs as [|x xs IH]; intros l; cbn [drops]; [cbn; tauto|]. rewrite IH, mem_drop. cbn [In]. intuition (subst; auto).
Qed.

Section Moves.
Variable cp : name -> bool.
Definition nc (l : list name) : list name := filter (fun n => negb (cp n)) l.
Lemma nc_app a b : nc (a ++ b) = nc a ++ nc b.
Proof. apply filter_app. Qed.
Lemma nc_incl a : incl (nc a) a.
Proof. intros n H. apply filter_In in H. apply H. Qed.
Lemma nc_none a : (forall n, In n a -> cp n = true) -> nc a = [].
Proof. induction a as [|x a IH]; intros H; [reflexivity|]. cbn. rewrite (H x) by (left; reflexivity). cbn. apply IH. intros n Hn. apply H. right. exact Hn. Qed.

(** [mvs K U s]: when no variable of [U] or [K] has been moved before, [s] is accepted, and moves variables of [U] at most. *)
Definition mvs (K U : list name) (s : code) : Prop :=
  forall M, disj M (U ++ K) -> exists N, moves cp M s = Some N /\ incl N (M ++ U).

Lemma mvs_mono K U K' U' s : incl K K' -> incl U U' -> mvs K U s -> mvs K' U' s.
Proof.
  intros I1 I2 H M HD. destruct (H M) as (N & E & I).
  - intros n Hn Q. apply (HD n Hn). apply in_app_iff. apply in_app_iff in Q. destruct Q; auto.
  - exists N. split; [exact E|]. eapply incl_tran; [exact I|]. apply incl_app; [apply incl_appl, incl_refl|apply incl_appr, I2].
Qed.
Lemma mvs_some K U s : mvs K U s -> is_some (moves cp [] s) = true.
Proof. intros H. destruct (H []) as (N & -> & _); [intros n []|reflexivity]. Qed.
Lemma mvs_state K U : mvs K U CState.
Proof. intros M _. exists M. split; [reflexivity|apply incl_appl, incl_refl]. Qed.

Lemma move_ok xs : forall M, NoDup xs -> disj M (nc xs) -> exists N, move cp xs M = Some N /\ incl N (M ++ nc xs).
Proof.
  induction xs as [|x xs IH]; intros M ND HD.
  - exists M. split; [reflexivity|apply incl_appl, incl_refl].
  - apply NoDup_cons_iff in ND. destruct ND as [Nx ND]. cbn [move nc filter] in *. destruct (cp x) eqn:C; cbn [negb] in *.
    + exact (IH M ND HD).
    + assert (Hx : ~ In x M) by (intros Q; apply (HD x Q); left; reflexivity). rewrite (not_mem Hx). destruct (IH (x :: M) ND) as (N & E & I).
      * intros n [<-|Hn] Q; [apply Nx, (nc_incl Q)|]. apply (HD n Hn). right. exact Q.
      * exists N. split; [exact E|]. intros n Hn. specialize (I n Hn). cbn [app In] in I. rewrite in_app_iff in *. cbn [In]. tauto.
Qed.

Lemma leave_ok K U x s : mvs (x :: K) (x :: U) s -> forall M, disj M (U ++ K) ->
  exists N, leave x M (moves cp (drop x M) s) = Some N /\ incl N (M ++ U).
Proof.
  intros H M HD. destruct (H (drop x M)) as (N & -> & I).
  - intros n Hn Q. apply mem_drop in Hn. destruct Hn as [Hn Hx]. apply (HD n Hn). rewrite in_app_iff in *. cbn [In] in Q. intuition congruence.
  - cbn [leave option_map]. eexists. split; [reflexivity|]. assert (J : incl (drop x N) (M ++ U)).
    { intros n Hn. apply mem_drop in Hn. destruct Hn as [Hn Hx]. specialize (I n Hn). rewrite in_app_iff in *. rewrite mem_drop in I. cbn [In] in I. intuition congruence. }
    destruct (mem x M) eqn:E; [|exact J]. intros n [<-|Hn]; [|exact (J n Hn)]. apply in_or_app. left. apply mem_In, E.
Qed.
Lemma leaves_some xs : forall M N, exists N', leaves xs M (Some N) = Some N' /\ forall n, In n N' -> In n N /\ ~ In n xs \/ In n M.
Proof.
  induction xs as [|x xs IH]; intros M N; [exists N; split; [reflexivity|cbn; tauto]|]. cbn [leaves leave option_map].
  destruct (IH M (if mem x M then x :: drop x N else drop x N)) as (N' & E & I). exists N'. split; [exact E|]. intros n Hn.
  destruct (I n Hn) as [[A B]|A]; [|auto]. destruct (mem x M) eqn:Ex.
  - destruct A as [<-|A]; [right; apply mem_In, Ex|]. apply mem_drop in A. left. cbn [In]. intuition congruence.
  - apply mem_drop in A. left. cbn [In]. intuition congruence.
Qed.
Lemma leaves_ok K U xs s : mvs K (xs ++ U) s -> forall M, disj M (U ++ K) -> disj xs K ->
  exists N, leaves xs M (moves cp (drops xs M) s) = Some N /\ incl N (M ++ U).
Proof.
  intros H M HD HK. destruct (H (drops xs M)) as (N & -> & I).
  - intros n Hn Q. apply mem_drops in Hn. destruct Hn as [Hn Hx]. apply (HD n Hn). rewrite !in_app_iff in *. tauto.
  - destruct (leaves_some xs M N) as (N' & -> & J). exists N'. split; [reflexivity|]. intros n Hn. rewrite in_app_iff.
    destruct (J n Hn) as [[A B]|A]; [|auto]. specialize (I n A). rewrite !in_app_iff, mem_drops in I. tauto.
Qed.
Lemma fail_ok M : moves cp M CFailure = Some M /\ forall l, moves cp M (CError l CFailure) = Some M.
Proof. split; reflexivity. Qed.
Lemma join_ok M a b U : (exists N, a = Some N /\ incl N (M ++ U)) -> (exists N, b = Some N /\ incl N (M ++ U)) -> exists N, join a b = Some N /\ incl N (M ++ U).
Proof. intros (N1 & -> & I1) (N2 & -> & I2). exists (N1 ++ N2). split; [reflexivity|]. apply incl_app; assumption. Qed.
Lemma same_ok (M U : list name) : exists N, Some M = Some N /\ incl N (M ++ U).
Proof. exists M. split; [reflexivity|apply incl_appl, incl_refl]. Qed.
Lemma then_ok K U a b : mvs K [] a -> mvs K U b -> forall M, disj M (U ++ K) ->
  exists N, andthen (moves cp M a) (fun M => moves cp M b) = Some N /\ incl N (M ++ U).
Proof.
  intros H1 H2 M HD. destruct (H1 M) as (N & -> & I); [intros n Hn Q; apply (HD n Hn), in_or_app; right; exact Q|]. rewrite app_nil_r in I. cbn [andthen].
  destruct (H2 N) as (N' & E & I'); [intros n Hn; apply HD, I, Hn|]. exists N'. split; [exact E|]. eapply incl_tran; [exact I'|].
  apply incl_app; [apply incl_appl, I|apply incl_appr, incl_refl].
Qed.

Definition mtab (cl : ctable) : bool := forallb (fun k => is_some (moves cp [] (kbody (snd k)))) cl.

Lemma let_mvs K U x c : mvs K U c -> mvs K U (CLetMark x c) /\ mvs K U (CLetCounter x c) /\ forall v, mvs K U (CLetBool x v c).
Proof.
  intros H. assert (Q : mvs (x :: K) (x :: U) c) by (eapply mvs_mono; [apply incl_tl, incl_refl|apply incl_tl, incl_refl|exact H]).
  repeat split; intros; intros M HD; exact (leave_ok Q HD).
Qed.
Lemma optional_moves K U s body x c y : optional_code s body x = (c, y) -> mvs K [] body -> mvs K U s ->
  mvs K U c /\ closures y = closures x.
Proof.
  intros H B S. apply pair_inj in H. destruct H as [<- <-]. split; [|reflexivity]. apply let_mvs. intros M HD. exact (then_ok B S HD).
Qed.
Lemma loop_moves K U body k m c : mvs K [] body -> mvs K U c -> mvs K U (CLoop body k m c).
Proof.
  intros B S M HD. cbn [moves]. destruct (B M) as (N & -> & I); [intros n Hn Q; apply (HD n Hn), in_or_app; right; exact Q|]. rewrite app_nil_r in I. cbn [andthen].
  assert (HN : disj N (U ++ K)) by (intros n Hn; apply HD, I, Hn). destruct (then_ok B S HN) as (N' & -> & I'). exists N'. split; [reflexivity|].
  eapply incl_tran; [exact I'|]. apply incl_app; [apply incl_appl, I|apply incl_appr, incl_refl].
Qed.
Lemma repeat_moves K U k s body x c y : repeat_code k s CFailure body x = (c, y) -> mvs K [] body -> mvs K U s ->
  mvs K U c /\ closures y = closures x.
Proof.
  intros H B S. unfold repeat_code in H. cbn [next_mark next_counter] in H. destruct (0 <? k); apply pair_inj in H; destruct H as [<- <-]; (split; [|reflexivity]).
  - apply let_mvs, let_mvs, loop_moves; [exact B|]. intros M HD. cbn [moves]. apply join_ok; [apply same_ok|exact (S M HD)].
  - apply let_mvs, loop_moves; [exact B|]. exact S.
Qed.
Lemma choice_moves K bf mk bs : Forall (mvs K []) bs -> mvs K [] (choice_code bf mk bs).
Proof.
  induction 1 as [|b bs B F IH]; [apply mvs_state|]. intros M HD. cbn [choice_code moves]. apply join_ok; [exact (then_ok B IH HD)|apply same_ok].
Qed.

Section Gen.
Variable G : grammar.

Record okm (m : mode) (x : ctx) (K U : list name) (d : bool) : Prop := {
  o_nodup : NoDup (frees x);
  o_frees : Forall (old x) (frees x);
  o_used : Forall (old x) U;
  o_kept : Forall (old x) K;
  o_muts : incl (muts x) K;
  o_apart : disj (frees x) K;
  o_idle : d = false -> U = [] /\ m = Rec
}.

Definition keepm comp m (f : bool -> bool -> bool -> nat -> bool) : Prop :=
  forall i s x c y xs K U d L, comp i s x = COk (c, y) -> frees x = frees y ++ xs ->
    f (0 <? ncomb x) d L i = true -> okm m x K U d ->
    (forall n, In n (all_chars c y) -> cp n = true) -> (L = false -> nc (frees y) = [] /\ U = []) ->
    mvs K (nc xs ++ U) s -> mtab (closures x) = true -> mvs K U c /\ mtab (closures y) = true.

Lemma NoDup_app_l (a b : list name) : NoDup (a ++ b) -> NoDup a.
Proof. induction a as [|x a IH]; intros H; [constructor|]. cbn in H. apply NoDup_cons_iff in H. destruct H as [H1 H2]. constructor; [|auto]. intros K. apply H1, in_or_app. auto. Qed.

Lemma seq_keepm comp m co f : shape_ih G comp m -> embeds comp ->
  (forall i s x c y xs, comp i s x = COk (c, y) -> co i = true -> frees x = frees y ++ xs -> incl xs (all_chars c y)) ->
  keepm comp m f -> forall l s x c y xs K U d L, compile_seq comp l s x = COk (c, y) -> frees x = frees y ++ xs ->
    seq_single co f (0 <? ncomb x) d L l = true -> okm m x K U d ->
    (forall n, In n (all_chars c y) -> cp n = true) -> (L = false -> nc (frees y) = [] /\ U = []) ->
    mvs K (nc xs ++ U) s -> mtab (closures x) = true -> (l <> [] -> 0 <? ncomb y = true) /\ mvs K U c /\ mtab (closures y) = true.
Proof.
  intros HS HE HC HK. induction l as [|i l IH]; intros s x c y xs K U d L H F Hf O Hc HL S T.
  - cbn [compile_seq] in H. apply COk_inj, pair_inj in H. destruct H as [<- <-]. split; [congruence|]. split; [|exact T].
    assert (xs = []) as ->; [|exact S]. destruct xs; [reflexivity|]. apply (f_equal (@length _)) in F. rewrite app_length in F. cbn in F. lia.
  - cbn [compile_seq] in H. apply cbind_ok in H. destruct H as ([s1 x1] & E1 & H).
    apply cbind_ok in H. destruct H as ([c2 x2] & E2 & H). apply COk_inj, pair_inj in H. destruct H as [<- <-].
    split; [reflexivity|]. cbn [closures with_ncomb frees] in *. unfold all_chars in Hc. cbn [closures with_ncomb] in Hc.
    pose proof (compile_seq_shape HS E1) as Sh1. pose proof (HS _ _ _ _ _ E2) as Sh2.
    destruct (sh_frees Sh1) as (u & F1 & Lu), (sh_frees Sh2) as (v & F2 & Lv).
    assert (xs = v ++ u) as -> by (rewrite F1, F2, <- app_assoc in F; apply app_inv_head in F; congruence).
    assert (HU : Forall (old x) (nc v ++ U)).
    { apply Forall_app. split; [|exact (o_used O)]. apply Forall_forall. intros n Hn. pose proof (o_frees O) as Q. rewrite Forall_forall in Q. apply Q.
      rewrite F, app_assoc. apply in_or_app. left. apply in_or_app. right. exact (nc_incl Hn). }
    assert (O1 : okm m x K (nc v ++ U) d).
    { destruct O. constructor; try assumption. intros Ed. destruct (o_idle0 Ed) as [-> Em]. split; [|exact Em]. subst m. cbn in Lv. destruct v; [reflexivity|discriminate]. }
    assert (Hs : seq_single co f (0 <? ncomb x) d (L || negb (co i)) l = true).
    { cbn [seq_single] in Hf. destruct l; [reflexivity|]. apply andb_true_iff in Hf. apply Hf. }
    assert (HL1 : L || negb (co i) = false -> nc (frees x1) = [] /\ nc v ++ U = []).
    { intros Q. apply orb_false_iff in Q. destruct Q as [-> Q]. apply negb_false_iff in Q. destruct (HL eq_refl) as [Q1 Q2].
      assert (Nv : nc v = []) by (apply nc_none; intros n Hn; apply Hc; exact (HC _ _ _ _ _ _ E2 Q F2 n Hn)). rewrite F2, nc_app, Q1, Nv, Q2. auto. }
    assert (S1 : mvs K (nc u ++ nc v ++ U) s) by (eapply mvs_mono; [apply incl_refl| |exact S]; rewrite nc_app; inc).
    destruct (IH _ _ _ _ _ _ _ _ _ E1 F1 Hs O1 (fun n Hn => Hc n (HE _ _ _ _ _ E2 n Hn)) HL1 S1 T) as (P1 & S2 & T2).
    refine (HK _ _ _ _ _ _ _ _ d L E2 F2 _ _ Hc HL S2 T2).
    + cbn [seq_single] in Hf. destruct l as [|j l].
      * cbn [compile_seq] in E1. apply COk_inj, pair_inj in E1. destruct E1 as [<- <-]. exact Hf.
      * rewrite (P1 ltac:(discriminate)). apply andb_true_iff in Hf. apply Hf.
    + destruct O. assert (IF : incl (frees x1) (frees x)) by (rewrite F1; apply incl_appl, incl_refl). pose proof (sh_le Sh1) as Le. constructor.
      * rewrite F1 in o_nodup0. exact (NoDup_app_l o_nodup0).
      * apply Forall_forall. intros n Hn. rewrite Forall_forall in o_frees0. eapply old_le; [exact Le|]. apply o_frees0, IF, Hn.
      * eapply olds_le; eassumption.
      * eapply olds_le; eassumption.
      * rewrite (sh_muts Sh1). exact o_muts0.
      * intros n Hn. apply o_apart0, IF, Hn.
      * exact o_idle0.
Qed.

Lemma branches_keepm comp m f : shape_ih G comp m -> keepm comp m f ->
  forall l nv x0 ms bf s x bs y xs K d L, compile_branches comp (save_scope x0) bf s l x = COk (bs, y) ->
    Forall (fun j => ncard G m j = nv) l -> ctx_le x0 x -> muts x0 = ms ++ [bf] -> ncomb x0 = 0 ->
    frees x0 = frees y ++ xs -> length xs = nv ->
    forallb (f false d L) l = true -> okm m x0 K [] d ->
    (forall n, In n (flat_map char_names bs ++ table_chars (closures y)) -> cp n = true) -> (L = false -> nc (frees y) = []) ->
    mvs K (nc xs) s -> mtab (closures x) = true -> Forall (mvs K []) bs /\ mtab (closures y) = true.
Proof.
  intros HS HK. induction l as [|i l IH]; intros nv x0 ms bf s x bs y xs K d L H HF Lx Ms Nc F Lxs Hf O Hc HL S T; [discriminate|].
  inversion HF as [|? ? Hi HF']; subst. cbn [forallb] in Hf. apply andb_true_iff in Hf. destruct Hf as [Hf1 Hf2]. destruct l as [|j l].
  - cbn [compile_branches] in H. apply cbind_ok in H. destruct H as (x1 & Ep & H).
    apply pop_mut_ok in Ep. destruct Ep as [_ Ep]. simpl in Ep. rewrite Ms, removelast_last in Ep.
    apply cbind_ok in H. destruct H as ([c y'] & Ec & H). apply COk_inj, pair_inj in H. destruct H as [<- ->].
    assert (L1 : ctx_le x0 x1) by (rewrite Ep; eapply ctx_le_trans; [exact Lx|]; eapply ctx_le_trans; [apply restore_scope_le|apply with_muts_le]).
    assert (F1 : frees x1 = frees x0) by (rewrite Ep; reflexivity).
    destruct (@HK i s x1 c y xs K [] d L Ec) as [A B].
    + rewrite F1. exact F.
    + assert (N1 : ncomb x1 = 0) by (rewrite Ep; exact Nc). rewrite N1. exact Hf1.
    + destruct O. constructor; rewrite ?F1; try assumption; try (eapply olds_le; eassumption).
      rewrite Ep. cbn [muts with_muts]. intros n Hn. apply o_muts0. rewrite Ms. apply in_or_app. auto.
    + cbn [flat_map] in Hc. rewrite app_nil_r in Hc. exact Hc.
    + intros El. split; [exact (HL El)|reflexivity].
    + rewrite app_nil_r. exact S.
    + rewrite Ep. exact T.
    + split; [constructor; [exact A|constructor]|exact B].
  - remember (j :: l) as jl eqn:Ejl. cbn [compile_branches] in H. rewrite Ejl in H. rewrite <- Ejl in H.
    apply cbind_ok in H. destruct H as ([c x1] & Ec & H). apply cbind_ok in H. destruct H as ([cs y'] & Es & H).
    apply COk_inj, pair_inj in H. destruct H as [<- ->].
    pose proof (HS _ _ _ _ _ Ec) as Sh. pose proof (compile_branches_shape HS HF' Es) as (L2 & _).
    assert (L0 : ctx_le x0 (restore_scope (save_scope x0) x)) by (eapply ctx_le_trans; [exact Lx|apply restore_scope_le]).
    assert (L1 : ctx_le x0 (with_ncomb x1 (Datatypes.S (ncomb x1)))).
    { eapply ctx_le_trans; [exact L0|]. eapply ctx_le_trans; [apply (sh_le Sh)|apply with_ncomb_le]. }
    destruct (sh_frees Sh) as (u & F1 & Lu). cbn [frees restore_scope with_ncomb with_muts with_frees sc_frees save_scope] in F1.
    assert (frees x1 = frees y /\ u = xs) as [Fy ->] by (rewrite F in F1; symmetry in F1; apply split_same in F1; [exact F1|congruence]).
    destruct (@HK i (CSetBool bf false s) (restore_scope (save_scope x0) x) c x1 xs K [] d L Ec) as [A B].
    + exact F1.
    + cbn [ncomb restore_scope with_ncomb sc_ncomb save_scope]. rewrite Nc. exact Hf1.
    + destruct O. constructor; cbn [frees muts restore_scope with_ncomb with_muts with_frees sc_frees sc_muts save_scope]; try assumption; try (eapply olds_le; eassumption).
    + intros n Hn. apply Hc. apply table_chars_le in L2. cbn [closures with_ncomb] in L2. unfold all_chars in Hn. cbn [flat_map].
      rewrite !in_app_iff in *. destruct Hn as [Hn|Hn]; [auto|]. right. exact (L2 n Hn).
    + intros El. rewrite Fy. split; [exact (HL El)|reflexivity].
    + rewrite app_nil_r. exact S.
    + exact T.
    + destruct (IH (length xs) x0 ms bf s (with_ncomb x1 (Datatypes.S (ncomb x1))) cs y xs K d L Es HF' L1 Ms Nc F eq_refl Hf2 O) as [A2 B2].
      * intros n Hn. apply Hc. cbn [flat_map]. rewrite !in_app_iff in *. tauto.
      * exact HL.
      * exact S.
      * exact B.
      * split; [constructor; assumption|exact B2].
Qed.

Lemma body_moves fuel K e x body x1 L : keepm (compile G fuel Rec) Rec (single G fuel Rec) ->
  compile G fuel Rec e CState x = COk (body, x1) -> single G fuel Rec (0 <? ncomb x) false L e = true ->
  NoDup (frees x) -> Forall (old x) (frees x) -> Forall (old x) K -> incl (muts x) K -> disj (frees x) K ->
  (forall n, In n (all_chars body x1) -> cp n = true) -> (L = false -> nc (frees x) = []) -> mtab (closures x) = true ->
  mvs K [] body /\ mtab (closures x1) = true /\ frees x1 = frees x /\ ctx_le x x1.
Proof.
  intros IH E Hf N F HK Hm Ha Hc HL T. pose proof (compile_shape (m := Rec) I E) as Sh.
  assert (Fx : frees x = frees x1) by (destruct (sh_frees Sh) as (u & Fu & Lu); cbn in Lu; destruct u; [|discriminate]; rewrite app_nil_r in Fu; exact Fu).
  destruct (IH e CState x body x1 [] K [] false L E) as [A B].
  - rewrite app_nil_r. exact Fx.
  - exact Hf.
  - constructor; auto.
  - exact Hc.
  - intros El. rewrite <- Fx. auto.
  - apply mvs_state.
  - exact T.
  - split; [exact A|]. split; [exact B|]. split; [congruence|apply (sh_le Sh)].
Qed.

Lemma stores_moves r opt l : NoDup l -> mvs [r] (nc l) (stores r opt l).
Proof.
  intros N M HD. assert (H1 : disj M (nc l)) by (intros n Hn Q; apply (HD n Hn), in_or_app; auto).
  assert (H2 : ~ In r M) by (intros Q; apply (HD r Q), in_or_app; right; left; reflexivity).
  destruct (@move_ok l M N H1) as (N1 & E & J). destruct opt; cbn [stores moves].
  - rewrite E. cbn [andthen]. eexists. split; [reflexivity|]. intros n Hn. apply mem_drop in Hn. apply J, Hn.
  - rewrite (not_mem H2), E. cbn [andthen]. exists N1. auto.
Qed.

Lemma fresh_nodup k n : NoDup (map (NVar k) (seq 0 n)).
Proof. apply Injective_map_NoDup; [intros a b Q; congruence|apply seq_NoDup]. Qed.

(** The scope of an option or of a list. *)
Lemma scope_moves fuel e x r x1 sc x2 opt body x4 x5 : coherent G ->
  keepm (compile G fuel Par) Par (single G fuel Par) ->
  next_free_var x = COk (r, x1) -> open_scope (card G e) x1 = (sc, x2) ->
  compile G fuel Par e (stores r opt (frees (push_mut r x2))) (push_mut r x2) = COk (body, x4) ->
  close_scope sc (with_ncomb x4 (S (ncomb x4))) = COk x5 ->
  single G fuel Par false true false e = true -> Forall (old x) (frees x) ->
  (forall n, In n (all_chars body x4) -> cp n = true) -> mtab (closures x) = true ->
  mvs [r] [] body /\ mtab (closures x5) = true /\ frees x5 = frees x1 /\ closures x5 = closures x4.
Proof.
  intros HC IH Er Eo Ec Ex Hf HF Hc T. destruct (scope_le HC Er Eo Ec Ex) as (L1 & L2 & L3 & C1 & C2 & F4 & F5).
  apply next_free_var_ok in Er. destruct Er as [F E1]. apply pair_inj in Eo. destruct Eo as [Es E2].
  assert (M3 : muts (push_mut r x2) = [r]) by (rewrite <- E2; reflexivity).
  assert (N3 : ncomb (push_mut r x2) = 0) by (rewrite <- E2; reflexivity).
  assert (F3 : frees (push_mut r x2) = map (NVar (prefix_uid x)) (seq 0 (card G e))) by (rewrite <- E2, E1; reflexivity).
  assert (P3 : prefix_uid (push_mut r x2) = S (prefix_uid x)) by (rewrite <- E2, E1; reflexivity).
  assert (Hr : Forall (old x) [r]) by (constructor; [|constructor]; rewrite Forall_forall in HF; apply HF; rewrite F; apply in_or_app; right; left; reflexivity).
  destruct (IH e _ _ _ _ (frees (push_mut r x2)) [r] [] true false Ec) as [A B].
  - rewrite F4. reflexivity.
  - rewrite N3. exact Hf.
  - constructor; rewrite ?F3, ?M3; try (apply incl_refl); try discriminate.
    + apply fresh_nodup.
    + apply Forall_forall. intros n Hn. apply in_map_iff in Hn. destruct Hn as (k & <- & _). change (prefix_uid x < prefix_uid (push_mut r x2)). rewrite P3. lia.
    + constructor.
    + exact (olds_le L1 Hr).
    + intros n Hn [<-|[]]. revert Hn. intros Hn. apply in_map_iff in Hn. destruct Hn as (k & <- & _). inversion Hr as [|? ? Q]. cbn in Q. lia.
  - exact Hc.
  - intros _. rewrite F4. auto.
  - rewrite app_nil_r. apply stores_moves. rewrite F3. apply fresh_nodup.
  - change (mtab (closures (with_muts x2 (muts x2 ++ [r]))) = true). rewrite C1. exact T.
  - split; [exact A|]. rewrite C2. auto.
Qed.

Lemma span_moves fuel rg e x lo x1 r x2 s body x3 xs K U L : coherent G ->
  keepm (compile G fuel Par) Par (single G fuel Par) ->
  next_mark x = (lo, x1) -> next_free_var_skip (card G e) x1 = COk (r, x2) ->
  compile G fuel Par e (CLetSpan r rg lo s) (push_mark lo x2) = COk (body, x3) ->
  frees x = frees x3 ++ xs -> single G fuel Par (0 <? ncomb x) true L e = true ->
  okm Par x K U true -> (forall n, In n (all_chars body x3) -> cp n = true) -> (L = false -> nc (frees x3) = [] /\ U = []) ->
  mvs K (nc xs ++ U) s -> mtab (closures x) = true -> mvs K U (CLetMark lo body) /\ mtab (closures x3) = true.
Proof.
  intros HC IH Em Er Ec Fx Hf O Hc HL S T. apply next_free_var_skip_ok in Er. destruct Er as (a & b & F & Lb & E2).
  apply pair_inj in Em. destruct Em as [El E1].
  assert (F' : frees x = a ++ [r] ++ b) by (rewrite <- F, <- E1; reflexivity).
  assert (IF : incl (a ++ b) (frees x)) by (rewrite F'; intros n Hn; apply in_app_or in Hn; apply in_or_app; destruct Hn; [auto|right; right; assumption]).
  assert (L2 : ctx_le x (push_mark lo x2)).
  { rewrite E2, <- E1. eapply ctx_le_trans; [apply fresh_mark_le|]. eapply ctx_le_trans; [|apply with_marks_le]. apply with_frees_le. }
  assert (F2 : frees (push_mark lo x2) = a ++ b) by (rewrite E2; reflexivity).
  pose proof (compile_shape (m := Par) HC Ec) as Sh. destruct (sh_frees Sh) as (u & F3 & Lu). cbn [ncard] in Lu. rewrite F2 in F3.
  apply split_same in F3; [|congruence]. destruct F3 as [Fa ->].
  assert (xs = r :: u) as -> by (rewrite F', Fa in Fx; apply app_inv_head in Fx; symmetry; exact Fx).
  destruct (IH e _ _ _ _ u K U true L Ec) as [A B].
  - rewrite F2, Fa. reflexivity.
  - assert (N2 : ncomb (push_mark lo x2) = ncomb x) by (rewrite E2, <- E1; reflexivity). rewrite N2. exact Hf.
  - destruct O. constructor; rewrite ?F2; try assumption; try (eapply olds_le; eassumption).
    + rewrite F' in o_nodup0. apply NoDup_remove_1 in o_nodup0. exact o_nodup0.
    + eapply olds_le; [exact L2|]. apply Forall_forall. intros n Hn. rewrite Forall_forall in o_frees0. apply o_frees0, IF, Hn.
    + assert (M2 : muts (push_mark lo x2) = muts x) by (rewrite E2, <- E1; reflexivity). rewrite M2. exact o_muts0.
    + intros n Hn. apply o_apart0, IF, Hn.
  - exact Hc.
  - exact HL.
  - intros M HD. cbn [moves]. refine (leave_ok _ HD). eapply mvs_mono; [apply incl_tl, incl_refl| |exact S]. cbn [nc filter]. destruct (negb (cp r)); cbn [app]; [|apply incl_tl, incl_refl]. apply incl_refl.
  - assert (T2 : closures (push_mark lo x2) = closures x) by (rewrite E2, <- E1; reflexivity). rewrite T2. exact T.
  - split; [apply let_mvs, A|exact B].
Qed.

Lemma compile_keepm fuel : forall m, cohm G m -> keepm (compile G fuel m) m (single G fuel m).
Proof.
  induction fuel as [|fuel IH]; intros m0 HC i s x c y xs K U d L H F Hf O Hc HL S T; [discriminate|].
  assert (Sh0 : shape (ncard G m0 i) x y) by (eapply compile_shape; [exact HC|exact H]).
  cbn [compile] in H. apply cbind_ok in H. destruct H as (m & Em & H).
  rewrite <- (ncard_eff Em) in Sh0.
  assert (HM : cohm G m) by (destruct m; [exact I|destruct (eff_par Em) as [-> _]; exact HC]).
  destruct (expr_of G i) as [e|] eqn:Ee; [|discriminate].
  assert (HE : m = Par -> coh_expr G i e).
  { intros ->. destruct (eff_par Em) as [-> Hu]. exact (HC i e Ee Hu). }
  assert (Dp : m = Par -> d = true).
  { intros ->. destruct (eff_par Em) as [-> _]. destruct d; [reflexivity|]. destruct (o_idle O eq_refl) as [_ Q]. discriminate Q. }
  assert (O' : okm m x K U d).
  { destruct O. constructor; try assumption. intros Ed. destruct (o_idle0 Ed) as [Q1 Q2]. split; [exact Q1|]. subst m0. cbn in Em. congruence. }
  clear O. rename O' into O.
  cbn [single] in Hf. rewrite Ee, (mode_at_eff Em) in Hf.
  pose proof (IH m HM) as IHm. pose proof (IH Rec I) as IHr.
  assert (HSh : shape_ih G (compile G fuel m) m) by (intros ? ? ? ? ? Q; eapply compile_shape; eassumption).
  assert (HX : embeds (compile G fuel m)) by (apply compile_embeds; exact HM).
  assert (FR : m = Rec -> frees y = frees x /\ xs = []).
  { intros ->. destruct (sh_frees Sh0) as (u & Fu & Lu). cbn in Lu. destruct u; [|discriminate]. rewrite app_nil_r in Fu. rewrite Fu in F.
    split; [congruence|]. destruct xs; [reflexivity|]. apply (f_equal (@length _)) in F. rewrite app_length in F. cbn in F. lia. }
  (* a body followed by nothing *)
  assert (HB : forall j x' body x1, m = Rec -> frees x' = frees x -> muts x' = muts x -> ncomb x' = ncomb x -> closures x' = closures x -> ctx_le x x' ->
     compile G fuel Rec j CState x' = COk (body, x1) -> single G fuel Rec (0 <? ncomb x) false L j = true ->
     (forall n, In n (all_chars body x1) -> cp n = true) ->
     mvs K [] body /\ mtab (closures x1) = true).
  { intros j x' body x1 Er Q1 Q2 Q3 Q4 Q5 E Hj Hcj. destruct (FR Er) as [Fy _]. destruct O.
    destruct (@body_moves fuel K j x' body x1 L IHr E) as (A & B & _); rewrite ?Q1, ?Q2, ?Q3, ?Q4; try assumption; try (eapply olds_le; eassumption); [|auto].
    intros El. rewrite <- Fy. apply HL, El. }
  destruct e as [lit| |cls|id|p|l|l|e|e|e|e|e|e bx f|e t|e|e].
  - apply COk_inj, pair_inj in H. destruct H as [<- <-]. destruct m; [|destruct (HE eq_refl)]. destruct (FR eq_refl) as [_ ->]. split; [|exact T].
    intros M HD. cbn [moves]. apply join_ok; [exact (S M HD)|apply same_ok].
  - destruct m.
    + apply COk_inj, pair_inj in H. destruct H as [<- <-]. destruct (FR eq_refl) as [_ ->]. split; [|exact T].
      intros M HD. cbn [moves]. apply join_ok; [exact (S M HD)|apply same_ok].
    + apply cbind_ok in H. destruct H as ([v x1] & E & H). apply COk_inj, pair_inj in H. destruct H as [<- <-]. apply next_free_var_ok in E. destruct E as [F1 E].
      rewrite F1 in F. apply app_inv_head in F. subst xs. split; [|rewrite E; exact T]. intros M HD. cbn [moves]. apply join_ok; [|apply same_ok].
      refine (leave_ok _ HD). eapply mvs_mono; [apply incl_tl, incl_refl| |exact S]. cbn [nc filter]. destruct (negb (cp v)); cbn [app]; [apply incl_refl|apply incl_tl, incl_refl].
  - apply cbind_ok in H. destruct H as ([v x1] & E & H). apply cbind_ok in H. destruct H as (k & Ek & H). cbn [next_mark] in H.
    apply COk_inj, pair_inj in H. destruct H as [<- <-].
    assert (Q : mvs (v :: K) (v :: U) s /\ closures x1 = closures x).
    { destruct m.
      - apply COk_inj, pair_inj in E. destruct E as [<- <-]. destruct (FR eq_refl) as [_ ->]. split; [|reflexivity]. eapply mvs_mono; [apply incl_tl, incl_refl|apply incl_tl, incl_refl|exact S].
      - apply next_free_var_ok in E. destruct E as [F1 E]. cbn [frees] in F. rewrite F1 in F. apply app_inv_head in F. subst xs. split; [|rewrite E; reflexivity].
        eapply mvs_mono; [apply incl_tl, incl_refl| |exact S]. cbn [nc filter]. destruct (negb (cp v)); cbn [app]; [apply incl_refl|apply incl_tl, incl_refl]. }
    destruct Q as [Q1 Q2]. split; [|cbn [closures]; rewrite Q2; exact T]. apply let_mvs. intros M HD. cbn [moves]. apply join_ok; [exact (leave_ok Q1 HD)|apply same_ok].
  - destruct m.
    + apply COk_inj, pair_inj in H. destruct H as [<- <-]. destruct (FR eq_refl) as [_ ->]. split; [|exact T].
      intros M HD. cbn [moves]. apply join_ok; [exact (S M HD)|apply same_ok].
    + apply cbind_ok in H. destruct H as ([vs x1] & E & H). apply COk_inj, pair_inj in H. destruct H as [<- <-]. apply pop_vars_ok in E. destruct E as (F1 & _ & E).
      assert (vs = xs) as -> by (rewrite F1 in F; apply app_inv_head in F; exact F).
      split; [|rewrite E; exact T]. intros M HD. cbn [moves]. apply join_ok; [|apply same_ok]. refine (leaves_ok _ HD _).
      * eapply mvs_mono; [apply incl_refl| |exact S]. apply incl_app; [apply incl_appl, nc_incl|apply incl_appr, incl_refl].
      * intros n Hn. apply (o_apart O). rewrite F1. apply in_or_app. auto.
  - destruct m.
    + apply COk_inj, pair_inj in H. destruct H as [<- <-]. destruct (FR eq_refl) as [_ ->]. split; [|exact T].
      intros M HD. cbn [moves]. apply join_ok; [exact (S M HD)|apply same_ok].
    + apply cbind_ok in H. destruct H as ([vs x1] & E & H). apply COk_inj, pair_inj in H. destruct H as [<- <-]. apply pop_vars_ok in E. destruct E as (F1 & _ & E).
      assert (vs = xs) as -> by (rewrite F1 in F; apply app_inv_head in F; exact F).
      split; [|rewrite E; exact T]. intros M HD. cbn [moves]. apply join_ok; [|apply same_ok]. refine (leaves_ok _ HD _).
      * eapply mvs_mono; [apply incl_refl| |exact S]. apply incl_app; [apply incl_appl, nc_incl|apply incl_appr, incl_refl].
      * intros n Hn. apply (o_apart O). rewrite F1. apply in_or_app. auto.
  - refine (proj2 (@seq_keepm _ m (chars_only G fuel m) _ HSh HX _ IHm _ _ _ _ _ _ _ _ _ _ H F Hf O Hc HL S T)).
    intros i' s' x' c' y' xs' Q1 Q2 Q3. destruct m; [|refine (compile_chars HM Q1 Q2 Q3 _); discriminate].
    destruct (sh_frees (HSh _ _ _ _ _ Q1)) as (u & Fu & Lu). cbn in Lu. destruct u; [|discriminate]. rewrite Fu in Q3. apply app_inv_head in Q3. subst xs'. intros n [].
  - (* choice *)
    destruct (success_as_closure s x) as [s1 x1] eqn:Es. cbn [next_mark next_branch branch_uid prefix_uid mark_uid counter_uid closure_uid closures frees marks muts ncomb] in H.
    apply cbind_ok in H. destruct H as ([bs y'] & E & H). destruct bs as [|b r]; [discriminate|].
    apply COk_inj, pair_inj in H. destruct H as [<- <-].
    apply andb_true_iff in Hf. destruct Hf as [Hf1 Hf2].
    assert (UP : U = [] /\ (0 <? ncomb x = true -> nc (frees y') = [])).
    { destruct L; [|destruct (HL eq_refl); auto]. cbn [andb] in Hf1. apply negb_true_iff, orb_false_iff in Hf1. destruct Hf1 as [-> ->]. destruct (o_idle O eq_refl). split; [assumption|discriminate]. }
    destruct UP as [-> NP].
    assert (X : frees x1 = frees x /\ muts x1 = muts x /\ ncomb x1 = 0 /\ ctx_le x x1 /\ branch_uid x1 = branch_uid x /\ mvs K (nc xs) s1 /\ mtab (closures x1) = true).
    { pose proof (success_as_closure_le s x) as Ls. rewrite Es in Ls. cbn [snd] in Ls. rewrite app_nil_r in S. unfold success_as_closure in Es. destruct (0 <? ncomb x) eqn:En; apply pair_inj in Es; destruct Es as [<- <-].
      - do 3 (split; [reflexivity|]). split; [exact Ls|]. split; [reflexivity|]. split.
        + intros M HD. cbn [moves]. assert (A : apart (muts x) M = true).
          { apply apart_spec. intros n Hn Q. apply (HD n Q), in_or_app. right. apply (o_muts O), Hn. }
          rewrite A. assert (Nf : nc (frees x) = nc xs) by (rewrite F, nc_app, (NP eq_refl); reflexivity). rewrite <- Nf.
          apply move_ok; [exact (o_nodup O)|]. rewrite Nf. intros n Hn Q. apply (HD n Hn), in_or_app. auto.
        + cbn [closures]. unfold mtab. rewrite forallb_app. cbn. unfold mtab in T. rewrite T, (mvs_some S). reflexivity.
      - do 2 (split; [reflexivity|]). split; [apply Nat.ltb_ge in En; lia|]. auto using ctx_le_refl. }
    destruct X as (X1 & X2 & X3 & X4 & X5 & X6 & X7).
    match type of E with compile_branches _ (save_scope ?z) _ _ _ ?z = _ => set (x4 := z) in * end.
    set (mk := NMark (Datatypes.S (mark_uid x1))) in *. set (bf := NBranch (Datatypes.S (branch_uid x1))) in *.
    assert (M4 : muts x4 = muts x ++ [bf]) by (cbn; rewrite X2; reflexivity).
    assert (F4 : frees x4 = frees x) by exact X1.
    assert (L4 : ctx_le x x4).
    { eapply ctx_le_trans; [exact X4|]. eapply ctx_le_trans; [apply fresh_mark_le|]. eapply ctx_le_trans; [apply fresh_branch_le|]. apply with_muts_le. }
    assert (Lx : length xs = ncard G m i) by (destruct (sh_frees Sh0) as (u & Fu & <-); rewrite Fu in F; apply app_inv_head in F; congruence).
    assert (HF : Forall (fun j => ncard G m j = ncard G m i) l) by (destruct m; [apply Forall_forall; reflexivity|exact (HE eq_refl)]).
    destruct (@branches_keepm _ m _ HSh IHm l (ncard G m i) x4 (muts x) bf s1 x4 (b :: r) y' xs (bf :: K) d L E HF (ctx_le_refl _) M4 X3) as [B1 B2].
    + rewrite F4. exact F.
    + exact Lx.
    + exact Hf2.
    + destruct O. constructor; rewrite ?F4, ?M4; try assumption.
      * eapply olds_le; eassumption.
      * constructor.
      * constructor; [unfold bf, x4; cbn; lia|eapply olds_le; eassumption].
      * intros n Hn. apply in_app_or in Hn. destruct Hn as [Hn|[<-|[]]]; [right; auto|left; reflexivity].
      * intros n Hn [<-|Q]; [|exact (o_apart0 n Hn Q)]. revert Hn. unfold bf. rewrite X5. exact (branch_disj o_frees0).
    + intros n Hn. apply Hc. unfold all_chars. cbn [char_names]. rewrite choice_chars. exact Hn.
    + intros El. apply HL, El.
    + eapply mvs_mono; [apply incl_tl, incl_refl|apply incl_refl|exact X6].
    + exact X7.
    + split; [|exact B2]. inversion B1 as [|? ? B3 B4]; subst. apply let_mvs.
      intros M HD. cbn [moves]. refine (@leave_ok K [] bf (CAssign b (choice_code bf mk r)) _ M HD).
      eapply mvs_mono; [apply incl_refl|apply incl_nil_l|]. intros M' HD'. exact (then_ok B3 (choice_moves bf mk B4) HD').
  - (* star *)
    destruct m.
    + apply cbind_ok in H. destruct H as ([body x1'] & E & H). apply cbind_ok in E. destruct E as ([body' x1] & E & E').
      apply COk_inj, pair_inj in E'. destruct E' as [-> <-]. apply COk_inj in H. destruct (FR eq_refl) as [_ ->]. pose proof (repeat_chars H) as [C1 C2].
      destruct (HB e x body x1) as [A B]; try reflexivity; try assumption; [apply ctx_le_refl| |].
      { intros n Hn. apply Hc. unfold all_chars in *. rewrite C1, C2. cbn [closures with_ncomb]. rewrite !in_app_iff in *. tauto. }
      destruct (@repeat_moves K U 0 s body _ _ _ H A S) as [Q1 Q2]. rewrite Q2. auto.
    + apply cbind_ok in H. destruct H as ([r x1] & Er & H). destruct (open_scope (card G e) x1) as [sc x2] eqn:Eo.
      apply cbind_ok in H. destruct H as ([body x4'] & E & H). apply cbind_ok in E. destruct E as ([body' x4] & E & E').
      apply COk_inj, pair_inj in E'. destruct E' as [-> <-]. apply cbind_ok in H. destruct H as (x5 & Ec & H).
      destruct (repeat_code 0 s CFailure body x5) as [c6 x6] eqn:E6. apply COk_inj, pair_inj in H. destruct H as [<- <-].
      pose proof (repeat_chars E6) as [C1 C2]. pose proof (repeat_moves (K := r :: K) (U := r :: U) E6) as RM. pose proof (sh_repeat E6) as Sr.
      assert (F6 : frees x6 = frees x5) by (destruct (sh_frees Sr) as (u & Fu & Lu); destruct u; [|discriminate]; rewrite app_nil_r in Fu; congruence).
      assert (C5 : closures x5 = closures x4) by (apply close_scope_ok in Ec; destruct Ec as [_ ->]; reflexivity).
      destruct (@scope_moves fuel e x r x1 sc x2 false body x4 x5 HM IHm Er Eo E Ec Hf (o_frees O)) as (A & B & F5 & _); [|exact T|].
      { intros n Hn. apply Hc. unfold all_chars in *. cbn [char_names]. rewrite C1, C2, C5. rewrite !in_app_iff in *. tauto. }
      apply next_free_var_ok in Er. destruct Er as [F1 _]. assert (xs = [r]) as -> by (rewrite F6, F5, F1 in F; apply app_inv_head in F; congruence).
      destruct RM as [Q1 Q2].
      * eapply mvs_mono; [|apply incl_refl|exact A]. intros n [<-|[]]. left. reflexivity.
      * eapply mvs_mono; [apply incl_tl, incl_refl| |exact S]. cbn [nc filter]. destruct (negb (cp r)); cbn [app]; [apply incl_refl|apply incl_tl, incl_refl].
      * rewrite Q2. split; [|exact B]. intros M HD. exact (leave_ok Q1 HD).
  - destruct m.
    + apply cbind_ok in H. destruct H as ([body x1'] & E & H). apply cbind_ok in E. destruct E as ([body' x1] & E & E').
      apply COk_inj, pair_inj in E'. destruct E' as [-> <-]. apply COk_inj in H. destruct (FR eq_refl) as [_ ->]. pose proof (repeat_chars H) as [C1 C2].
      destruct (HB e x body x1) as [A B]; try reflexivity; try assumption; [apply ctx_le_refl| |].
      { intros n Hn. apply Hc. unfold all_chars in *. rewrite C1, C2. cbn [closures with_ncomb]. rewrite !in_app_iff in *. tauto. }
      destruct (@repeat_moves K U 1 s body _ _ _ H A S) as [Q1 Q2]. rewrite Q2. auto.
    + apply cbind_ok in H. destruct H as ([r x1] & Er & H). destruct (open_scope (card G e) x1) as [sc x2] eqn:Eo.
      apply cbind_ok in H. destruct H as ([body x4'] & E & H). apply cbind_ok in E. destruct E as ([body' x4] & E & E').
      apply COk_inj, pair_inj in E'. destruct E' as [-> <-]. apply cbind_ok in H. destruct H as (x5 & Ec & H).
      destruct (repeat_code 1 s CFailure body x5) as [c6 x6] eqn:E6. apply COk_inj, pair_inj in H. destruct H as [<- <-].
      pose proof (repeat_chars E6) as [C1 C2]. pose proof (repeat_moves (K := r :: K) (U := r :: U) E6) as RM. pose proof (sh_repeat E6) as Sr.
      assert (F6 : frees x6 = frees x5) by (destruct (sh_frees Sr) as (u & Fu & Lu); destruct u; [|discriminate]; rewrite app_nil_r in Fu; congruence).
      assert (C5 : closures x5 = closures x4) by (apply close_scope_ok in Ec; destruct Ec as [_ ->]; reflexivity).
      destruct (@scope_moves fuel e x r x1 sc x2 false body x4 x5 HM IHm Er Eo E Ec Hf (o_frees O)) as (A & B & F5 & _); [|exact T|].
      { intros n Hn. apply Hc. unfold all_chars in *. cbn [char_names]. rewrite C1, C2, C5. rewrite !in_app_iff in *. tauto. }
      apply next_free_var_ok in Er. destruct Er as [F1 _]. assert (xs = [r]) as -> by (rewrite F6, F5, F1 in F; apply app_inv_head in F; congruence).
      destruct RM as [Q1 Q2].
      * eapply mvs_mono; [|apply incl_refl|exact A]. intros n [<-|[]]. left. reflexivity.
      * eapply mvs_mono; [apply incl_tl, incl_refl| |exact S]. cbn [nc filter]. destruct (negb (cp r)); cbn [app]; [apply incl_refl|apply incl_tl, incl_refl].
      * rewrite Q2. split; [|exact B]. intros M HD. exact (leave_ok Q1 HD).
  - destruct m.
    + apply cbind_ok in H. destruct H as ([body x1'] & E & H). apply cbind_ok in E. destruct E as ([body' x1] & E & E').
      apply COk_inj, pair_inj in E'. destruct E' as [-> <-]. apply COk_inj in H. destruct (FR eq_refl) as [_ ->]. pose proof (optional_chars H) as [C1 C2].
      destruct (HB e x body x1) as [A B]; try reflexivity; try assumption; [apply ctx_le_refl| |].
      { intros n Hn. apply Hc. unfold all_chars in *. rewrite C1, C2. cbn [closures with_ncomb]. rewrite !in_app_iff in *. tauto. }
      destruct (@optional_moves K U s body _ _ _ H A S) as [Q1 Q2]. rewrite Q2. auto.
    + apply cbind_ok in H. destruct H as ([r x1] & Er & H). destruct (open_scope (card G e) x1) as [sc x2] eqn:Eo.
      apply cbind_ok in H. destruct H as ([body x4'] & E & H). apply cbind_ok in E. destruct E as ([body' x4] & E & E').
      apply COk_inj, pair_inj in E'. destruct E' as [-> <-]. apply cbind_ok in H. destruct H as (x5 & Ec & H).
      destruct (optional_code s body x5) as [c6 x6] eqn:E6. apply COk_inj, pair_inj in H. destruct H as [<- <-].
      pose proof (optional_chars E6) as [C1 C2]. pose proof (optional_moves (K := r :: K) (U := r :: U) E6) as RM. pose proof (sh_optional E6) as Sr.
      assert (F6 : frees x6 = frees x5) by (destruct (sh_frees Sr) as (u & Fu & Lu); destruct u; [|discriminate]; rewrite app_nil_r in Fu; congruence).
      assert (C5 : closures x5 = closures x4) by (apply close_scope_ok in Ec; destruct Ec as [_ ->]; reflexivity).
      destruct (@scope_moves fuel e x r x1 sc x2 true body x4 x5 HM IHm Er Eo E Ec Hf (o_frees O)) as (A & B & F5 & _); [|exact T|].
      { intros n Hn. apply Hc. unfold all_chars in *. cbn [char_names]. rewrite C1, C2, C5. rewrite !in_app_iff in *. tauto. }
      apply next_free_var_ok in Er. destruct Er as [F1 _]. assert (xs = [r]) as -> by (rewrite F6, F5, F1 in F; apply app_inv_head in F; congruence).
      destruct RM as [Q1 Q2].
      * eapply mvs_mono; [|apply incl_refl|exact A]. intros n [<-|[]]. left. reflexivity.
      * eapply mvs_mono; [apply incl_tl, incl_refl| |exact S]. cbn [nc filter]. destruct (negb (cp r)); cbn [app]; [apply incl_refl|apply incl_tl, incl_refl].
      * rewrite Q2. split; [|exact B]. intros M HD. exact (leave_ok Q1 HD).
  - (* predicates *)
    destruct m; [|discriminate]. apply cbind_ok in H. destruct H as ([body x2'] & E & H).
    apply cbind_ok in E. destruct E as ([body' x2] & E & E').
    apply COk_inj, pair_inj in E'. destruct E' as [-> <-]. apply COk_inj, pair_inj in H. destruct H as [<- <-]. destruct (FR eq_refl) as [_ ->].
    destruct (HB e (snd (next_mark x)) body x2) as [A B]; try reflexivity; [apply fresh_mark_le|exact E|exact Hf| |].
    { intros n Hn. apply Hc. unfold all_chars in *. cbn [char_names closures with_ncomb]. rewrite !in_app_iff in *. tauto. }
    split; [|exact B]. apply let_mvs. intros M HD. refine (@then_ok K U body (CTestRestore (NMark 0) CFailure s) A _ M HD). intros M' HD'. cbn [moves]. apply join_ok; [apply same_ok|exact (S M' HD')].
  - destruct m; [|discriminate]. apply cbind_ok in H. destruct H as ([body x2'] & E & H).
    apply cbind_ok in E. destruct E as ([body' x2] & E & E').
    apply COk_inj, pair_inj in E'. destruct E' as [-> <-]. apply COk_inj, pair_inj in H. destruct H as [<- <-]. destruct (FR eq_refl) as [_ ->].
    destruct (HB e (snd (next_mark x)) body x2) as [A B]; try reflexivity; [apply fresh_mark_le|exact E|exact Hf| |].
    { intros n Hn. apply Hc. unfold all_chars in *. cbn [char_names closures with_ncomb]. rewrite !in_app_iff in *. tauto. }
    split; [|exact B]. apply let_mvs. intros M HD. refine (@then_ok K U body (CTestRestore (NMark 0) s CFailure) A _ M HD). intros M' HD'. cbn [moves]. apply join_ok; [exact (S M' HD')|apply same_ok].
  - (* action *)
    destruct m; [refine (IHr _ _ _ _ _ _ _ _ _ _ H F Hf O Hc HL S T)|].
    apply cbind_ok in H. destruct H as ([r x1] & Er & H). destruct (open_scope (card G e) x1) as [sc x2] eqn:Eo.
    apply cbind_ok in H. destruct H as ([body x4'] & E & H). apply cbind_ok in E. destruct E as ([body' x4] & E & E').
    apply COk_inj, pair_inj in E'. destruct E' as [-> <-]. apply cbind_ok in H. destruct H as (x5 & Ec & H).
    apply COk_inj, pair_inj in H. destruct H as [<- <-].
    assert (W : x2 = with_muts x2 (muts x2)) by (destruct x2; reflexivity).
    assert (Q : ctx_le x x2 /\ closures x2 = closures x /\ closures x5 = closures x4 /\ frees x4 = [] /\ frees x5 = frees x1).
    { pose proof E as E'. rewrite W in E'. destruct (scope_le HM Er Eo E' Ec) as (Q1 & _ & _ & Q2 & Q3 & Q4 & Q5). rewrite <- W in Q1, Q2. auto. }
    destruct Q as (L2 & C2 & C5 & F4 & F5).
    apply next_free_var_ok in Er. destruct Er as [F1 E1]. apply pair_inj in Eo. destruct Eo as [Es E2].
    assert (xs = [r]) as -> by (rewrite F5, F1 in F; apply app_inv_head in F; congruence).
    assert (M2 : muts x2 = []) by (rewrite <- E2; reflexivity).
    assert (N2 : ncomb x2 = 0) by (rewrite <- E2; reflexivity).
    assert (F2 : frees x2 = map (NVar (prefix_uid x)) (seq 0 (card G e))) by (rewrite <- E2, E1; reflexivity).
    assert (P2 : prefix_uid x2 = Datatypes.S (prefix_uid x)) by (rewrite <- E2, E1; reflexivity).
    assert (FD : forall l, Forall (old x) l -> disj (frees x2) l) by (intros l Hl n Hn Q; rewrite F2 in Hn; apply in_map_iff in Hn; destruct Hn as (k & <- & _); exact (fresh_disj Hl (le_n _) Q)).
    rewrite C5. assert (A' : mvs K U body /\ mtab (closures x4) = true); [|exact A'].
    refine (IHm e _ _ _ _ (frees x2) K U true L E _ _ _ _ _ _ _).
    + rewrite F4. reflexivity.
    + rewrite N2. exact Hf.
    + destruct O. constructor; rewrite ?M2; try (intros n []); try discriminate.
      * rewrite F2. apply fresh_nodup.
      * rewrite F2. apply Forall_forall. intros n Hn. apply in_map_iff in Hn. destruct Hn as (k & <- & _). change (prefix_uid x < prefix_uid x2). rewrite P2. lia.
      * eapply olds_le; eassumption.
      * eapply olds_le; eassumption.
      * exact (FD K o_kept0).
    + intros n Hn. apply Hc. unfold all_chars in *. rewrite C5. exact Hn.
    + intros El. rewrite F4. destruct (HL El) as [_ ->]. auto.
    + intros M HD. cbn [moves]. destruct (@move_ok (frees x2) M) as (N1 & E3 & J).
      * rewrite F2. apply fresh_nodup.
      * intros n Hn Q. apply (HD n Hn). rewrite !in_app_iff. auto.
      * rewrite E3. cbn [andthen]. assert (HD1 : disj N1 (U ++ K)).
        { intros n Hn Q. apply J in Hn. apply in_app_or in Hn. destruct Hn as [Hn|Hn].
          - apply (HD n Hn). rewrite !in_app_iff in *. tauto.
          - refine (FD (U ++ K) _ n (nc_incl Hn) Q). apply Forall_app. split; [exact (o_used O)|exact (o_kept O)]. }
        assert (S' : mvs (r :: K) (r :: U) s).
        { eapply mvs_mono; [apply incl_tl, incl_refl| |exact S]. cbn [nc filter]. destruct (negb (cp r)); cbn [app]; [apply incl_refl|apply incl_tl, incl_refl]. }
        destruct (leave_ok S' HD1) as (N2' & -> & J2). eexists. split; [reflexivity|]. eapply incl_tran; [exact J2|]. apply incl_app; [|inc].
        eapply incl_tran; [exact J|]. inc.
    + rewrite C2. exact T.
  - refine (IHm _ _ _ _ _ _ _ _ _ _ H F Hf O Hc HL S T).
  - destruct m; [refine (IHr _ _ _ _ _ _ _ _ _ _ H F Hf O Hc HL S T)|].
    destruct (next_mark x) as [lo x1] eqn:Ek. apply cbind_ok in H. destruct H as ([r0 x2] & Er & H).
    apply cbind_ok in H. destruct H as ([body x3'] & E & H). apply cbind_ok in E. destruct E as ([body' x3] & E & E').
    apply COk_inj, pair_inj in E'. destruct E' as [-> <-]. apply COk_inj, pair_inj in H. destruct H as [<- <-].
    rewrite (Dp eq_refl) in *. exact (span_moves HM IHm Ek Er E F Hf O Hc HL S T).
  - destruct m; [refine (IHr _ _ _ _ _ _ _ _ _ _ H F Hf O Hc HL S T)|].
    destruct (next_mark x) as [lo x1] eqn:Ek. apply cbind_ok in H. destruct H as ([r0 x2] & Er & H).
    apply cbind_ok in H. destruct H as ([body x3'] & E & H). apply cbind_ok in E. destruct E as ([body' x3] & E & E').
    apply COk_inj, pair_inj in E'. destruct E' as [-> <-]. apply COk_inj, pair_inj in H. destruct H as [<- <-].
    rewrite (Dp eq_refl) in *. exact (span_moves HM IHm Ek Er E F Hf O Hc HL S T).
Qed.
End Gen.
End Moves.

(** ---------------- the functions ---------------- *)
Lemma rec_single G fuel : forall p d i, single G fuel Rec p d false i = true.
Proof.
  induction fuel as [|n IH]; intros p d i; [reflexivity|]. cbn [single mode_at]. destruct (expr_of G i) as [e|]; [|reflexivity].
  destruct e as [lit| |cls|id|q|l|l|e|e|e|e|e|e bx f|e t|e|e]; try reflexivity; try apply IH.
  - destruct n as [|n'].
    + assert (A : forall p d L, seq_single (chars_only G 0 Rec) (single G 0 Rec) p d L l = true); [|apply A].
      induction l as [|i0 l IHl]; intros p0 d0 L; [reflexivity|]. cbn [seq_single]. destruct l; [reflexivity|]. cbn [single andb]. apply IHl.
    + revert p. induction l as [|i0 l IHl]; intros p; [reflexivity|]. cbn [seq_single]. destruct l as [|j l]; [apply IH|].
      rewrite IH. cbn [andb chars_only mode_at negb orb]. apply IHl.
  - cbn [andb negb]. apply forallb_forall. intros j _. apply IH.
Qed.

Definition chars_copy (cp : name -> bool) (f : func) : Prop := forall n, In n (func_chars f) -> cp n = true.

Theorem recognizer_moves G rl f cp : gen_recognizer G rl = COk f -> chars_copy cp f -> moves_ok cp f = true.
Proof.
  unfold gen_recognizer. intros H HCp. apply cbind_ok in H. destruct H as ([c x] & E & H). apply COk_inj in H. subst f.
  destruct (@compile_keepm cp G _ Rec I (rexpr rl) (CSuccess []) new_ctx c x [] [] [] true false E) as (Mc & Tc).
  - pose proof (compile_shape (m := Rec) I E) as Sh. destruct (sh_frees Sh) as (u & Fu & Lu). cbn in Fu. symmetry in Fu. apply app_eq_nil in Fu. destruct Fu as [-> _]. reflexivity.
  - apply rec_single.
  - constructor; try constructor; try (intros n []); try discriminate.
  - intros n Hn. apply HCp. unfold func_chars, all_chars, table_chars in *. cbn [fclosures fbody]. rewrite in_app_iff in *. tauto.
  - pose proof (compile_shape (m := Rec) I E) as Sh. destruct (sh_frees Sh) as (u & Fu & Lu). cbn in Fu. symmetry in Fu. apply app_eq_nil in Fu. destruct Fu as [-> _]. auto.
  - intros M HD. exists M. split; [reflexivity|apply incl_appl, incl_refl].
  - reflexivity.
  - unfold moves_ok. cbn [fclosures fbody]. apply andb_true_iff. split; [exact Tc|exact (mvs_some Mc)].
Qed.

Theorem parser_moves G rl f cp : coherent G -> gen_parser G rl = COk f -> rule_moves G rl = true -> chars_copy cp f -> moves_ok cp f = true.
Proof.
  unfold gen_parser, rule_moves, is_unit. intros HC H Hm HCp. destruct (ty_of G (rexpr rl)) as [t|] eqn:Et; [|discriminate].
  destruct (ty_is_unit t).
  - apply COk_inj in H. subst f. reflexivity.
  - destruct (open_scope (card G (rexpr rl)) new_ctx) as [sc x1] eqn:Eo. apply cbind_ok in H. destruct H as ([c x2] & E & H).
    apply cbind_ok in H. destruct H as (x3 & Ec & H). apply COk_inj in H. subst f.
    apply close_scope_ok in Ec. destruct Ec as [Fy Ex]. apply pair_inj in Eo. destruct Eo as [Es E1].
    assert (C3 : closures x3 = closures x2) by (rewrite Ex; reflexivity). rewrite C3 in *.
    destruct (@compile_keepm cp G _ Par HC (rexpr rl) (CSuccess (frees x1)) x1 c x2 (frees x1) [] [] true false E) as (Mc & Tc).
    + rewrite Fy. reflexivity.
    + rewrite <- E1. exact Hm.
    + rewrite <- E1. constructor; cbn; try constructor; try (intros n []); try discriminate.
      * apply fresh_nodup.
      * apply Forall_forall. intros n Hn. apply in_map_iff in Hn. destruct Hn as (k & <- & _). cbn. lia.
      * intros n _ [].
    + intros n Hn. apply HCp. unfold func_chars, all_chars, table_chars in *. cbn [fclosures fbody]. rewrite in_app_iff in *. tauto.
    + rewrite Fy. auto.
    + intros M HD. cbn [moves]. rewrite app_nil_r in *. apply move_ok; [rewrite <- E1; apply fresh_nodup|].
      rewrite app_nil_r in HD. exact HD.
    + rewrite <- E1. reflexivity.
    + unfold moves_ok. cbn [fclosures fbody]. apply andb_true_iff. split; [exact Tc|exact (mvs_some Mc)].
Qed.
