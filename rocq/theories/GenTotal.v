(** The code generator does not panic on grammars whose types fit their expressions. *)
From Verif Require Import Base Grammar PegSpec Target Compile CompileShape.
Set Implicit Arguments. Unset Strict Implicit.

(** What the front end guarantees of the arena: sub-expressions are allocated before their parent
    (front/ast.rs:40-45), every expression has a type slot, choices and classes are not empty. *)
Record arena_ok (G : grammar) : Prop := {
  ar_children : forall i e, expr_of G i = Some e -> Forall (fun j => j < i) (children e);
  ar_types : length (types G) = length (exprs G);
  ar_choice : forall i, expr_of G i <> Some (EAlt []);
  ar_class : forall i, expr_of G i <> Some (EClass []);
  ar_rules : forall rl, In rl (rules G) -> rexpr rl < length (exprs G)
}.

Section Total.
Variable G : grammar.
Hypothesis HA : arena_ok G.

Lemma expr_some i : i < length (exprs G) -> exists e, expr_of G i = Some e.
Proof. intros H. unfold expr_of. destruct (nth_error (exprs G) i) eqn:E; [eauto|]. apply nth_error_None in E. lia. Qed.
Lemma expr_lt i e : expr_of G i = Some e -> i < length (exprs G).
Proof. intros H. apply nth_error_Some. unfold expr_of in H. congruence. Qed.
Lemma type_some i : i < length (exprs G) -> exists t, ty_of G i = Some t.
Proof. intros H. unfold ty_of. destruct (nth_error (types G) i) eqn:E; [eauto|]. apply nth_error_None in E. rewrite (ar_types HA) in E. lia. Qed.

Definition total (comp : nat -> code -> ctx -> cres (code * ctx)) (m : mode) (i : nat) : Prop :=
  forall s x, (m = Par -> card G i <= length (frees x)) -> exists c y, comp i s x = COk (c, y).

Lemma seq_total comp m : shape_ih G comp m -> forall l, Forall (total comp m) l ->
  forall s x, (m = Par -> list_sum (map (card G) l) <= length (frees x)) -> exists c y, compile_seq comp l s x = COk (c, y).
Proof.
  intros HS l HF. induction HF as [|i l Hi HF IH]; intros s x HL; cbn [compile_seq]; [eauto|].
  destruct (IH s x) as (c1 & y1 & E1). { intros Em. specialize (HL Em). simpl in HL. lia. }
  rewrite E1. cbn [cbind]. pose proof (compile_seq_shape HS E1) as Sh. destruct (sh_frees Sh) as (xs & F & L).
  destruct (Hi c1 y1) as (c2 & y2 & E2).
  { intros Em. specialize (HL Em). simpl in HL. subst m. rewrite F, app_length, L in HL. change (map (ncard G Par) l) with (map (card G) l) in HL. lia. }
  rewrite E2. cbn [cbind]. eauto.
Qed.

Lemma branches_total comp m sc bf s : forall l, l <> [] -> Forall (total comp m) l ->
  sc_muts sc <> [] -> (m = Par -> Forall (fun i => card G i <= length (sc_frees sc)) l) ->
  forall x, exists b bs y, compile_branches comp sc bf s l x = COk (b :: bs, y).
Proof.
  intros l. induction l as [|i l IH]; intros NE HF HM HL x; [congruence|]. inversion HF as [|? ? Hi HF']; subst.
  destruct l as [|j l].
  - cbn [compile_branches]. unfold pop_mut. cbn [muts restore_scope with_muts with_ncomb with_frees].
    destruct (sc_muts sc) as [|a ms] eqn:E; [congruence|]. cbn [cbind].
    edestruct Hi as (c & y & Ec); [|rewrite Ec; cbn [cbind]; eauto].
    intros Em. specialize (HL Em). inversion HL; subst. assumption.
  - remember (j :: l) as jl eqn:Ejl. cbn [compile_branches]. rewrite Ejl, <- Ejl.
    destruct (Hi (CSetBool bf false s) (restore_scope sc x)) as (c & y & Ec).
    { intros Em. specialize (HL Em). inversion HL; subst. assumption. }
    rewrite Ec. cbn [cbind].
    destruct (IH ltac:(subst; discriminate) HF' HM) with (x := with_ncomb y (S (ncomb y))) as (b & bs & y2 & Eb).
    { intros Em. specialize (HL Em). inversion HL; subst. assumption. }
    rewrite Eb. cbn [cbind]. eauto.
Qed.


Lemma nfv_total x : 1 <= length (frees x) -> exists v l, next_free_var x = COk (v, with_frees x l).
Proof.
  intros H. destruct (frees x) as [|a l] eqn:E using rev_ind; [simpl in H; lia|]. exists a, l.
  exact (next_free_var_some E).
Qed.

Lemma is_unit_card i : is_unit G i = true -> card G i = 0.
Proof. unfold is_unit, card. destruct (ty_of G i) as [[]|]; simpl; congruence. Qed.

Ltac eok := do 2 eexists; reflexivity.

Lemma compile_total fuel : forall m i, cohm G m -> i < fuel -> i < length (exprs G) -> total (compile G fuel m) m i.
Proof.
  induction fuel as [|fuel IH]; intros m0 i HC Hf Hi s x HL; [lia|].
  cbn [compile]. destruct (type_some Hi) as [t Et].
  assert (exists m, eff_mode G m0 i = COk m) as [m Em].
  { destruct m0; simpl; [eauto|]. rewrite Et. eauto. }
  rewrite Em. cbn [cbind].
  assert (HM : cohm G m) by (destruct m; [exact I|destruct (eff_par Em) as [-> _]; exact HC]).
  assert (HL' : m = Par -> card G i <= length (frees x)) by (intros ->; destruct (eff_par Em) as [-> _]; auto).
  destruct (expr_some Hi) as [e Ee]. rewrite Ee.
  assert (HE : m = Par -> coh_expr G i e).
  { intros ->. destruct (eff_par Em) as [-> Hu']. exact (HC i e Ee Hu'). }
  pose proof (ar_children HA Ee) as Ch.
  assert (HSh : shape_ih G (compile G fuel m) m) by (intros ? ? ? ? ? K; eapply compile_shape; eassumption).
  assert (Sub : forall m' j, cohm G m' -> In j (children e) -> total (compile G fuel m') m' j).
  { intros m' j Hm Hj. rewrite Forall_forall in Ch. specialize (Ch j Hj). apply IH; [exact Hm|lia|lia]. }
  assert (Rec1 : forall j s x, In j (children e) -> exists c y, compile G fuel Rec j s x = COk (c, y)).
  { intros j s' x' Hj. apply (Sub Rec j I Hj). discriminate. }
  clear Em HC HL. rename HL' into HL.
  destruct e as [lit| |cls|id|p|l|l|e|e|e|e|e|e bx f|e t'|e|e]; cbn [children] in *.
  - eok.
  - destruct m; [eok|]. destruct (@nfv_total x) as (v & l & E). { rewrite <- (HE eq_refl). auto. } rewrite E. eok.
  - assert (K : exists k, compile_condition cls = COk k).
    { destruct cls as [|c cls]; [exfalso; exact (ar_class HA Ee)|]. simpl. eauto. }
    destruct K as [k K]. destruct m; cbn [cbind]; [rewrite K; eok|].
    destruct (@nfv_total x) as (v & l & E). { rewrite <- (HE eq_refl). auto. } rewrite E. cbn [cbind]. rewrite K. eok.
  - destruct m; [eok|]. specialize (HL eq_refl).
    assert (exists a b, frees x = a ++ b /\ length b = card G i) as (a & b & E & L).
    { exists (firstn (length (frees x) - card G i) (frees x)), (skipn (length (frees x) - card G i) (frees x)).
      rewrite firstn_skipn, skipn_length. split; [reflexivity|lia]. }
    rewrite (pop_vars_some E L). eok.
  - destruct m; [eok|]. specialize (HL eq_refl).
    assert (exists a b, frees x = a ++ b /\ length b = card G i) as (a & b & E & L).
    { exists (firstn (length (frees x) - card G i) (frees x)), (skipn (length (frees x) - card G i) (frees x)).
      rewrite firstn_skipn, skipn_length. split; [reflexivity|lia]. }
    rewrite (pop_vars_some E L). eok.
  - apply (@seq_total _ m HSh).
    + apply Forall_forall. intros j Hj. apply Sub; [exact HM|exact Hj].
    + intros ->. pose proof (HE eq_refl) as HE'. simpl in HE'. rewrite <- HE'. auto.
  - destruct (success_as_closure s x) as [s1 x1] eqn:Es. cbn [next_mark next_branch].
    assert (F1 : frees x1 = frees x).
    { unfold success_as_closure in Es. destruct (0 <? ncomb x); apply pair_inj in Es; destruct Es as [_ <-]; reflexivity. }
    match goal with |- exists c y, (cbind (compile_branches ?comp ?sc ?bf ?s ?l ?z) _) = _ =>
      destruct (fun a b c d => @branches_total comp m sc bf s l a b c d z) as (b & bs & y & Eb) end.
    + intros ->. exact (ar_choice HA Ee).
    + apply Forall_forall. intros j Hj. apply Sub; [exact HM|exact Hj].
    + simpl. destruct (muts x1); discriminate.
    + intros ->. pose proof (HE eq_refl) as HE'. simpl in HE'. eapply Forall_impl; [|exact HE']. simpl. rewrite F1.
      intros a ->. auto.
    + rewrite Eb. eok.
  - destruct m.
    + destruct (Rec1 e CState x) as (c & y & E); [left; reflexivity|]. rewrite E. cbn [cbind]. unfold repeat_code. eok.
    + destruct (@nfv_total x) as (v & l & E). { rewrite <- (HE eq_refl). auto. } rewrite E. cbn [cbind].
      destruct (open_scope (card G e) (with_frees x l)) as [sc x2] eqn:Eo.
      assert (L2 : length (frees (push_mut v x2)) = card G e) by (apply pair_inj in Eo; destruct Eo as [_ <-]; simpl; rewrite map_length, seq_length; reflexivity).
      destruct (Sub Par e HM (or_introl eq_refl) (CPush v (frees (push_mut v x2)) CState) (push_mut v x2)) as (c & y & Ec); [intros _; lia|].
      rewrite Ec. cbn [cbind]. pose proof (compile_shape HM Ec) as Sh. destruct (sh_frees Sh) as (xs & F & L). simpl in L.
      unfold close_scope. cbn [frees with_ncomb]. assert (Fy : frees y = []).
      { rewrite F, app_length in L2. destruct (frees y); [reflexivity|simpl in L2; lia]. }
      rewrite Fy. cbn [cbind]. unfold repeat_code. eok.
  - destruct m.
    + destruct (Rec1 e CState x) as (c & y & E); [left; reflexivity|]. rewrite E. cbn [cbind]. unfold repeat_code. eok.
    + destruct (@nfv_total x) as (v & l & E). { rewrite <- (HE eq_refl). auto. } rewrite E. cbn [cbind].
      destruct (open_scope (card G e) (with_frees x l)) as [sc x2] eqn:Eo.
      assert (L2 : length (frees (push_mut v x2)) = card G e) by (apply pair_inj in Eo; destruct Eo as [_ <-]; simpl; rewrite map_length, seq_length; reflexivity).
      destruct (Sub Par e HM (or_introl eq_refl) (CPush v (frees (push_mut v x2)) CState) (push_mut v x2)) as (c & y & Ec); [intros _; lia|].
      rewrite Ec. cbn [cbind]. pose proof (compile_shape HM Ec) as Sh. destruct (sh_frees Sh) as (xs & F & L). simpl in L.
      unfold close_scope. cbn [frees with_ncomb]. assert (Fy : frees y = []).
      { rewrite F, app_length in L2. destruct (frees y); [reflexivity|simpl in L2; lia]. }
      rewrite Fy. cbn [cbind]. unfold repeat_code. eok.
  - destruct m.
    + destruct (Rec1 e CState x) as (c & y & E); [left; reflexivity|]. rewrite E. cbn [cbind]. unfold optional_code. eok.
    + destruct (@nfv_total x) as (v & l & E). { rewrite <- (HE eq_refl). auto. } rewrite E. cbn [cbind].
      destruct (open_scope (card G e) (with_frees x l)) as [sc x2] eqn:Eo.
      assert (L2 : length (frees (push_mut v x2)) = card G e) by (apply pair_inj in Eo; destruct Eo as [_ <-]; simpl; rewrite map_length, seq_length; reflexivity).
      destruct (Sub Par e HM (or_introl eq_refl) (CSetSome v (frees (push_mut v x2)) CState) (push_mut v x2)) as (c & y & Ec); [intros _; lia|].
      rewrite Ec. cbn [cbind]. pose proof (compile_shape HM Ec) as Sh. destruct (sh_frees Sh) as (xs & F & L). simpl in L.
      unfold close_scope. cbn [frees with_ncomb]. assert (Fy : frees y = []).
      { rewrite F, app_length in L2. destruct (frees y); [reflexivity|simpl in L2; lia]. }
      rewrite Fy. cbn [cbind]. unfold optional_code. eok.
  - destruct m; [|destruct (HE eq_refl)]. cbn [next_mark].
    match goal with |- context [compile G fuel Rec e CState ?z] => destruct (Rec1 e CState z) as (c & y & E); [left; reflexivity|] end.
    rewrite E. cbn [cbind]. eok.
  - destruct m; [|destruct (HE eq_refl)]. cbn [next_mark].
    match goal with |- context [compile G fuel Rec e CState ?z] => destruct (Rec1 e CState z) as (c & y & E); [left; reflexivity|] end.
    rewrite E. cbn [cbind]. eok.
  - destruct m; [apply Rec1; left; reflexivity|].
    destruct (@nfv_total x) as (v & l & E). { rewrite <- (HE eq_refl). auto. } rewrite E. cbn [cbind].
    destruct (open_scope (card G e) (with_frees x l)) as [sc x2] eqn:Eo.
    assert (L2 : length (frees x2) = card G e) by (apply pair_inj in Eo; destruct Eo as [_ <-]; simpl; rewrite map_length, seq_length; reflexivity).
    match goal with |- context [compile G fuel Par e ?s0 x2] => destruct (Sub Par e HM (or_introl eq_refl) s0 x2) as (c & y & Ec); [intros _; lia|] end.
    rewrite Ec. cbn [cbind]. pose proof (compile_shape HM Ec) as Sh. destruct (sh_frees Sh) as (xs & F & L). simpl in L.
    unfold close_scope. cbn [frees with_ncomb]. assert (Fy : frees y = []).
    { rewrite F, app_length in L2. destruct (frees y); [reflexivity|simpl in L2; lia]. }
    rewrite Fy. cbn [cbind]. eok.
  - apply Sub; [exact HM|left; reflexivity|]. intros ->. pose proof (HE eq_refl) as HE'. simpl in HE'. rewrite HE'. auto.
  - destruct m; [apply Rec1; left; reflexivity|]. pose proof (HE eq_refl) as HE'. simpl in HE'. specialize (HL eq_refl).
    unfold next_mark. set (x1 := mkCtx _ _ _ _ _ _ _ _ _ _).
    assert (exists a v b, frees x1 = a ++ [v] ++ b /\ length b = card G e) as (a & v & b & E & L).
    { change (frees x1) with (frees x). pose proof (firstn_skipn (length (frees x) - card G i) (frees x)) as K.
      assert (Lk : length (skipn (length (frees x) - card G i) (frees x)) = S (card G e)) by (rewrite skipn_length; lia).
      destruct (skipn _ (frees x)) as [|v b]; [discriminate|]. do 3 eexists. split; [symmetry; exact K|]. simpl in Lk. lia. }
    rewrite <- L, (next_free_var_skip_some E). cbn [cbind].
    match goal with |- context [compile G fuel Par e ?s0 ?z] => destruct (Sub Par e HM (or_introl eq_refl) s0 z) as (c & y & Ec) end.
    { intros _. simpl. rewrite app_length. lia. }
    rewrite Ec. eok.
  - destruct m; [apply Rec1; left; reflexivity|]. pose proof (HE eq_refl) as HE'. simpl in HE'. specialize (HL eq_refl).
    unfold next_mark. set (x1 := mkCtx _ _ _ _ _ _ _ _ _ _).
    assert (exists a v b, frees x1 = a ++ [v] ++ b /\ length b = card G e) as (a & v & b & E & L).
    { change (frees x1) with (frees x). pose proof (firstn_skipn (length (frees x) - card G i) (frees x)) as K.
      assert (Lk : length (skipn (length (frees x) - card G i) (frees x)) = S (card G e)) by (rewrite skipn_length; lia).
      destruct (skipn _ (frees x)) as [|v b]; [discriminate|]. do 3 eexists. split; [symmetry; exact K|]. simpl in Lk. lia. }
    rewrite <- L, (next_free_var_skip_some E). cbn [cbind].
    match goal with |- context [compile G fuel Par e ?s0 ?z] => destruct (Sub Par e HM (or_introl eq_refl) s0 z) as (c & y & Ec) end.
    { intros _. simpl. rewrite app_length. lia. }
    rewrite Ec. eok.
Qed.

Theorem recognizer_total rl : In rl (rules G) -> exists f, gen_recognizer G rl = COk f.
Proof.
  intros H. pose proof (ar_rules HA H) as L. unfold gen_recognizer.
  destruct (@compile_total (gen_fuel G) Rec (rexpr rl) I) with (s := CSuccess []) (x := new_ctx) as (c & y & E); [unfold gen_fuel; lia|exact L|discriminate|].
  rewrite E. cbn [cbind]. eauto.
Qed.
Theorem parser_total rl : coherent G -> In rl (rules G) -> exists f, gen_parser G rl = COk f.
Proof.
  intros HC H. pose proof (ar_rules HA H) as L. unfold gen_parser. destruct (type_some L) as [t Et]. rewrite Et.
  destruct (ty_is_unit t); [eauto|].
  destruct (open_scope (card G (rexpr rl)) new_ctx) as [sc x1] eqn:Eo.
  assert (L2 : length (frees x1) = card G (rexpr rl)) by (apply pair_inj in Eo; destruct Eo as [_ <-]; simpl; rewrite map_length, seq_length; reflexivity).
  destruct (@compile_total (gen_fuel G) Par (rexpr rl) HC) with (s := CSuccess (frees x1)) (x := x1) as (c & y & E); [unfold gen_fuel; lia|exact L|intros _; lia|].
  rewrite E. cbn [cbind]. pose proof (compile_shape (m := Par) HC E) as Sh. destruct (sh_frees Sh) as (xs & F & L3). simpl in L3.
  unfold close_scope. assert (Fy : frees y = []).
  { rewrite F, app_length in L2. destruct (frees y); [reflexivity|simpl in L2; lia]. }
  rewrite Fy. cbn [cbind]. eauto.
Qed.
Theorem gen_total : coherent G -> gen_ok G.
Proof. intros HC rl [|] H; [apply recognizer_total, H|apply parser_total; assumption]. Qed.
End Total.
