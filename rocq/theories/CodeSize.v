(** The size of generated code. *)
From Verif Require Import Base Grammar PegSpec Target Compile CompileShape.
Set Implicit Arguments. Unset Strict Implicit.

(** ---------------- specification ---------------- *)
(** Number of constructs and identifiers of emitted code; a string literal counts for nothing. *)
Fixpoint cond_size (k : cond) : nat :=
  match k with KEq _ | KBetween _ _ => 1 | KOr a b => S (cond_size a + cond_size b) end.
Fixpoint code_size (c : code) : nat :=
  match c with
  | CState | CFailure | CTail _ => 1
  | CSuccess vars => S (length vars)
  | CCall _ muts frees marks => S (length muts + length frees + length marks)
  | CLetMark _ c | CLetBool _ _ c | CLetCounter _ c | CLetNone _ c | CLetVec _ c | CLetSpan _ _ _ c
  | CSetBool _ _ c | CError _ c | CRestore _ c | CRestoreFF _ c | CIfFailedRestore _ c => S (code_size c)
  | CLetAct _ _ _ _ vars c | CSetSome _ vars c | CPush _ vars c => S (length vars + code_size c)
  | CMatchClass _ k s f => S (cond_size k + code_size s + code_size f)
  | CMatchNext _ s f | CPrefix _ s f | CAssign s f | CIfTrue _ s f | CTestRestore _ s f | CCallRec _ s f
  | CLoop s _ _ f | CIfLess _ _ s f => S (code_size s + code_size f)
  | CCallPar _ vars s f => S (length vars + code_size s + code_size f)
  end.
Definition closure_size (k : closure) : nat :=
  S (length (kmuts k) + length (kfrees k) + length (kmarks k) + code_size (kbody k)).
Definition table_size (t : ctable) : nat := list_sum (map (fun k => closure_size (snd k)) t).
Definition func_size (f : func) : nat := table_size (fclosures f) + code_size (fbody f).

(** Size of an expression of the grammar: its nodes and the intervals of its character classes. *)
Definition intervals (e : expr) : nat := match e with EClass cls => length cls | _ => 0 end.
Fixpoint nodes (G : grammar) (fuel i : nat) : nat :=
  match fuel with
  | 0 => 0
  | S n => match expr_of G i with
           | None => 0
           | Some e => S (intervals e + list_sum (map (nodes G n) (children e)))
           end
  end.
(** Its nesting. *)
Fixpoint height (G : grammar) (fuel i : nat) : nat :=
  match fuel with
  | 0 => 0
  | S n => match expr_of G i with
           | None => 0
           | Some e => S (list_max (map (height G n) (children e)))
           end
  end.

(** Where an expression stands.  [Tail]: nothing but the end of the rule, of a repetition or of a branch
    follows it; [Mid]: other expressions follow; [Acted]: the expression ends the operand of an action
    which other expressions follow. *)
Inductive position := Tail | Mid | Acted.
Definition acted (p : position) : position := match p with Tail => Tail | _ => Acted end.
Definition mode_at (G : grammar) (m : mode) (i : nat) : mode :=
  match m with Rec => Rec | Par => if is_unit G i then Rec else Par end.
Section Last.
Variables (A : Type) (f g : A -> bool).
Fixpoint all_but_last (l : list A) : bool :=
  match l with [] => true | [z] => g z | i :: r => f i && all_but_last r end.
End Last.
(** No choice stands at the end of the operand of an action that other expressions follow.  [m] tells whether
    the value of the expression is built (Par) or not (Rec). *)
Fixpoint calm (G : grammar) (fuel : nat) (m : mode) (p : position) (i : nat) : bool :=
  match fuel with
  | 0 => true
  | S n =>
    let m := mode_at G m i in
    match expr_of G i with
    | Some (ESeq l) => all_but_last (calm G n m Mid) (calm G n m p) l
    | Some (EAlt l) => match p with Acted => false | _ => forallb (calm G n m Tail) l end
    | Some (EStar e) | Some (EPlus e) | Some (EOpt e) => calm G n m Tail e
    | Some (ENot e) | Some (EAnd e) => calm G n Rec Tail e
    | Some (EAct e _ _) => calm G n m (match m with Rec => p | Par => acted p end) e
    | Some (EAsc e _) | Some (ESpan e) | Some (ERange e) => calm G n m p e
    | _ => true
    end
  end.

(** ---------------- the bound ---------------- *)
Lemma all_but_last_true (f g : nat -> bool) l : (forall i, f i = true) -> (forall i, g i = true) -> all_but_last f g l = true.
Proof.
  intros F K. induction l as [|i l IH]; [reflexivity|]. cbn [all_but_last]. destruct l; [apply K|]. rewrite F, IH. reflexivity.
Qed.
Lemma mode_at_rec G i : mode_at G Rec i = Rec.
Proof. reflexivity. Qed.
(** Recognizers are always calm. *)
Lemma calm_rec G fuel : forall p i, p <> Acted -> calm G fuel Rec p i = true.
Proof.
  induction fuel as [|n IH]; intros p i Hp; [reflexivity|]. cbn [calm]. rewrite mode_at_rec.
  assert (M : forall i, calm G n Rec Mid i = true) by (intros; apply IH; discriminate).
  assert (T : forall i, calm G n Rec Tail i = true) by (intros; apply IH; discriminate).
  destruct (expr_of G i) as [[]|]; auto.
  - apply all_but_last_true; auto.
  - destruct p; try congruence; apply forallb_forall; auto.
Qed.

Lemma table_size_app a b : table_size (a ++ b) = table_size a + table_size b.
Proof. unfold table_size. rewrite map_app, list_sum_app. reflexivity. Qed.

Lemma condition_size cls k : compile_condition cls = COk k -> cond_size k + 1 = 2 * length cls.
Proof.
  assert (I1 : forall i, cond_size (compile_interval i) = 1) by (intros [a b]; unfold compile_interval; destruct (_ =? _)%N; reflexivity).
  assert (F : forall r a, cond_size (fold_left (fun acc j => KOr acc (compile_interval j)) r a) = cond_size a + 2 * length r).
  { induction r as [|j r IH]; intros a; cbn [fold_left length]; [lia|]. rewrite IH. cbn [cond_size]. rewrite I1. lia. }
  destruct cls as [|i r]; [discriminate|]. cbn [compile_condition]. intros H. injection H as <-. rewrite F, I1. cbn [length]. lia.
Qed.

Lemma choice_code_size bf mk bs : code_size (choice_code bf mk bs) = 1 + list_sum (map (fun b => 4 + code_size b) bs).
Proof. induction bs as [|b r IH]; [reflexivity|]. cbn [choice_code code_size map]. change (list_sum (?a :: ?b)) with (a + list_sum b). rewrite IH. lia. Qed.

Lemma list_max_cons a l : list_max (a :: l) = Nat.max a (list_max l).
Proof. reflexivity. Qed.

Section Size.
Variable G : grammar.
(** [w] bounds the number of values of an expression, [D] the variables and marks in scope plus the nesting. *)
Variables w D : nat.
Notation step := (4 + w).
Definition limit : nat := 1 + D + w + step * D.
Definition factor : nat := 2 * limit + 20.
Notation K := factor.

Definition bonus (p : position) (s : code) : nat := match p with Tail => 0 | _ => code_size s end.
Definition fit (p : position) (s : code) (x : ctx) (h : nat) : Prop :=
  length (frees x) <= w /\ length (muts x) + length (marks x) + h <= D /\
  match p with Tail => code_size s + step * h <= limit | Mid => 0 < ncomb x | Acted => True end.
Definition bounded (p : position) (s : code) (x : ctx) (c : code) (y : ctx) (n : nat) : Prop :=
  code_size c + table_size (closures y) + 8 <= table_size (closures x) + bonus p s + n * K.

(** The expressions whose value is asked for. *)
Variable ask : nat -> Prop.
Hypothesis ASK : forall i e, ask i -> expr_of G i = Some e -> is_unit G i = false -> Forall ask (children e).
Hypothesis CARD : forall i, ask i -> card G i <= w.

Definition size_ih (ok : nat -> Prop) (comp : nat -> code -> ctx -> cres (code * ctx)) (nd ht : nat -> nat) (cm : position -> nat -> bool) : Prop :=
  forall p i s x c y, ok i -> comp i s x = COk (c, y) -> cm p i = true -> fit p s x (ht i) -> bounded p s x c y (nd i).

Lemma closures_ncomb x k : closures (with_ncomb x k) = closures x. Proof. reflexivity. Qed.

Lemma fit_shape p s s' x y h h' n : shape n x y -> fit p s x h -> h' <= h -> 
  fit Mid s' (with_ncomb y (S (ncomb y))) h'.
Proof.
  intros [] (F1 & F2 & _) Hh. destruct sh_frees as (xs & E & _). rewrite E, app_length in F1. split; [cbn; lia|].
  split; [cbn [muts marks with_ncomb]; rewrite sh_marks, sh_muts; lia|cbn; lia].
Qed.
Lemma fit_lower p s x h h' : fit p s x h -> h' <= h -> fit p s x h'.
Proof. intros (F1 & F2 & F3) L. split; [exact F1|]. split; [lia|]. destruct p; auto. assert (step * h' <= step * h) by (apply Nat.mul_le_mono_l; lia). lia. Qed.

Lemma seq_size ok comp m nd ht cm : shape_ih G comp m -> size_ih ok comp nd ht cm ->
  forall p l s x c y, l <> [] -> Forall ok l -> compile_seq comp l s x = COk (c, y) -> all_but_last (cm Mid) (cm p) l = true ->
  fit p s x (list_max (map ht l)) -> bounded p s x c y (list_sum (map nd l)).
Proof.
  intros SH IH p l. induction l as [|i r IHl]; intros s x c y NE OK H CM HF; [congruence|]. cbn [compile_seq] in H. pose proof (Forall_inv OK) as OK1. pose proof (Forall_inv_tail OK) as OK2.
  cbn [map] in *. change (list_sum (nd i :: map nd r)) with (nd i + list_sum (map nd r)). rewrite list_max_cons in HF.
  apply cbind_ok in H. destruct H as ([c0 c1] & E & H). apply cbind_ok in H. destruct H as ([c' c2] & E0 & H).
  apply COk_inj, pair_inj in H. destruct H as [<- <-]. destruct r as [|j r].
  - cbn [compile_seq] in E. apply COk_inj, pair_inj in E. destruct E as [<- <-]. cbn [map list_sum fold_right]. rewrite Nat.add_0_r.
    cbn [all_but_last] in CM. pose proof (IH p _ _ _ _ _ OK1 E0 CM) as B. unfold bounded in *. rewrite closures_ncomb. apply B.
    eapply fit_lower; [exact HF|]. lia.
  - remember (j :: r) as jr eqn:Ej. cbn [all_but_last] in CM. rewrite Ej in CM. rewrite <- Ej in CM. apply andb_true_iff in CM. destruct CM as [C1 C2].
    assert (B1 : bounded p s x c0 c1 (list_sum (map nd jr))).
    { apply IHl; [subst; discriminate|exact OK2|exact E|exact C2|]. eapply fit_lower; [exact HF|]. lia. }
    pose proof (compile_seq_shape SH E) as Sh.
    assert (N1 : 0 < ncomb c1).
    { clear -E Ej. subst jr. cbn [compile_seq] in E. inv_ok. cbn. lia. }
    assert (B2 : bounded Mid c0 c1 c' c2 (nd i)).
    { apply (IH Mid _ _ _ _ _ OK1 E0 C1). destruct HF as (F1 & F2 & _). destruct Sh. destruct sh_frees as (xs & Ef & _).
      rewrite Ef, app_length in F1. split; [lia|]. split; [|exact N1]. rewrite sh_marks, sh_muts. lia. }
    unfold bounded in *. rewrite closures_ncomb. cbn [bonus] in B2. lia.
Qed.

Lemma branches_size ok comp m nd ht cm sc bf s hh : shape_ih G comp m -> size_ih ok comp nd ht cm ->
  sc_ncomb sc = 0 -> length (sc_frees sc) <= w -> forall l x bs y, Forall ok l ->
  length (sc_muts sc) + length (marks x) + hh <= D -> S (code_size s) + step * hh <= limit ->
  list_max (map ht l) <= hh -> forallb (cm Tail) l = true ->
  compile_branches comp sc bf s l x = COk (bs, y) ->
  list_sum (map (fun b => 4 + code_size b) bs) + table_size (closures y) + 4 * length bs <= table_size (closures x) + list_sum (map nd l) * K.
Proof.
  intros SH IH Hn Hfr. induction l as [|i l IHl]; intros x bs y OK HD HS HH CM H; [discriminate|]. pose proof (Forall_inv OK) as OK1. pose proof (Forall_inv_tail OK) as OK2.
  cbn [map] in *. change (list_sum (nd i :: map nd l)) with (nd i + list_sum (map nd l)). rewrite list_max_cons in HH.
  cbn [forallb] in CM. apply andb_true_iff in CM. destruct CM as [C1 C2].
  assert (St : step * ht i <= step * hh) by (apply Nat.mul_le_mono_l; lia).
  destruct l as [|j l].
  - cbn [compile_branches] in H. inv_ok. apply pop_mut_ok in E. destruct E as [_ ->].
    pose proof (IH Tail _ _ _ _ _ OK1 E0 C1) as B. unfold bounded, bonus in B. cbn [closures with_muts restore_scope with_ncomb with_frees] in B.
    cbn [map list_sum fold_right length]. rewrite !Nat.add_0_r. assert (fit Tail s (with_muts (restore_scope sc x) (removelast (muts (restore_scope sc x)))) (ht i)) as F.
    { split; [exact Hfr|]. split; [|lia]. cbn [muts marks with_muts restore_scope with_ncomb with_frees].
      assert (length (removelast (sc_muts sc)) <= length (sc_muts sc)) by (rewrite removelast_firstn_len, firstn_length; lia). lia. }
    specialize (B F). lia.
  - remember (j :: l) as jl eqn:Ejl. cbn [compile_branches] in H. rewrite Ejl in H.
    rewrite <- Ejl in H. inv_ok. cbn [map length]. change (list_sum (?a :: ?b)) with (a + list_sum b).
    pose proof (IH Tail _ _ _ _ _ OK1 E C1) as B. pose proof (sh_marks (SH _ _ _ _ _ E)) as Em.
    assert (Q := IHl _ _ _ OK2 ltac:(cbn [marks with_ncomb]; rewrite Em; exact HD) HS ltac:(lia) C2 E0).
    unfold bounded, bonus in B. cbn [closures with_muts restore_scope with_ncomb with_frees] in B, Q.
    assert (fit Tail (CSetBool bf false s) (restore_scope sc x) (ht i)) as F.
    { split; [exact Hfr|]. split; [cbn [muts marks with_muts restore_scope with_ncomb with_frees]; lia|cbn [code_size]; lia]. }
    specialize (B F). cbn [map] in Q. change (list_sum (nd j :: map nd l)) with (nd j + list_sum (map nd l)) in Q. lia.
Qed.

Lemma shape_frees n x y : shape n x y -> length (frees y) <= length (frees x).
Proof. intros []. destruct sh_frees as (xs & E & _). rewrite E, app_length. lia. Qed.

Lemma open_frees k x sc y : open_scope k x = (sc, y) -> length (frees y) = k.
Proof. intros H. apply pair_inj in H. destruct H as [_ <-]. cbn. rewrite map_length, seq_length. reflexivity. Qed.

Theorem compile_size fuel : forall m p i s x c y, cohm G m -> (m = Par -> ask i) ->
  compile G fuel m i s x = COk (c, y) -> calm G fuel m p i = true -> fit p s x (height G fuel i) ->
  bounded p s x c y (nodes G fuel i).
Proof.
  induction fuel as [|fuel IH]; intros m0 p i s x c y HC HW H CM HF; [discriminate|].
  cbn [compile] in H. apply cbind_ok in H. destruct H as (m & Em & H).
  cbn [calm height nodes] in *.
  assert (Hm : mode_at G m0 i = m).
  { destruct m0; cbn in *; [congruence|]. unfold is_unit. destruct (ty_of G i); [|discriminate]. congruence. }
  rewrite Hm in CM.
  assert (HM : cohm G m) by (destruct m; [exact I|destruct (eff_par Em) as [-> _]; exact HC]).
  destruct (expr_of G i) as [e|] eqn:Ee; [|discriminate].
  assert (HO : Forall (fun j => m = Par -> ask j) (children e)).
  { apply Forall_forall. intros j Ij ->. destruct (eff_par Em) as [E1 Hu]. pose proof (ASK (HW E1) Ee Hu) as F. rewrite Forall_forall in F. exact (F j Ij). }
  assert (HW' : m = Par -> forall j, j = i \/ In j (children e) -> card G j <= w).
  { intros -> j [-> | Ij]; apply CARD; [destruct (eff_par Em) as [-> _]; auto|]. rewrite Forall_forall in HO. exact (HO j Ij eq_refl). }
  clear HC HW. rename HW' into HW.
  assert (HE : m = Par -> coh_expr G i e).
  { intros ->. destruct (eff_par Em) as [E1 Hu]. apply (HM i e Ee Hu). }
  assert (SH : shape_ih G (compile G fuel m) m) by (intros ? ? ? ? ? Q; eapply compile_shape; eassumption).
  assert (SI : size_ih (fun j => m = Par -> ask j) (compile G fuel m) (nodes G fuel) (height G fuel) (calm G fuel m)).
  { intros p' i' s' x' c' y' Q0 Q1 Q2 Q3. eapply IH; eassumption. }
  (* a sub-expression recognized on its own *)
  assert (RE : forall j x1 c1 y1, compile G fuel Rec j CState x1 = COk (c1, y1) -> length (frees x1) <= w ->
      length (muts x1) + length (marks x1) + S (height G fuel j) <= D ->
      code_size c1 + table_size (closures y1) + 8 <= table_size (closures x1) + nodes G fuel j * K).
  { intros j x1 c1 y1 Q Q1 Q2. pose proof (IH Rec Tail j CState x1 c1 y1 I ltac:(discriminate) Q) as B.
    unfold bounded, bonus in B. rewrite Nat.add_0_r in B. apply B; [apply calm_rec; discriminate|].
    split; [exact Q1|]. split; [lia|]. cbn [code_size]. unfold limit. assert (step * height G fuel j <= step * D) by (apply Nat.mul_le_mono_l; lia). lia. }
  (* a sub-expression with its own scope *)
  assert (PA : m = Par -> forall j, In j (children e) -> forall x0 r x1 sc x2 s' body x4 x5, next_free_var x0 = COk (r, x1) -> open_scope (card G j) x1 = (sc, x2) ->
      compile G fuel m j s' (push_mut r x2) = COk (body, x4) -> close_scope sc (with_ncomb x4 (S (ncomb x4))) = COk x5 ->
      calm G fuel m Tail j = true -> code_size s' <= 2 + w -> length (marks x0) + S (height G fuel j) <= D ->
      code_size body + table_size (closures x5) + 8 <= table_size (closures x0) + nodes G fuel j * K).
  { intros Ep j Ij x0 r x1 sc x2 s' body x4 x5 Q1 Q2 Q3 Q4 Q5 Q6 Q7. rewrite Forall_forall in HO. pose proof (SI Tail _ _ _ _ _ (HO j Ij) Q3 Q5) as B.
    apply next_free_var_ok in Q1. destruct Q1 as [_ Q1]. apply close_scope_ok in Q4. destruct Q4 as [_ ->].
    pose proof (open_frees Q2) as Lf. apply pair_inj in Q2. destruct Q2 as [_ Q2]. unfold bounded, bonus in B. rewrite Nat.add_0_r in B.
    assert (Cx : closures (push_mut r x2) = closures x0) by (rewrite <- Q2, Q1; reflexivity). rewrite Cx in B. apply B.
    split; [cbn [push_mut with_muts frees]; rewrite Lf; apply (HW Ep); right; exact Ij|]. split; [rewrite <- Q2, Q1; cbn; lia|].
    unfold limit. assert (step * S (height G fuel j) <= step * D) by (apply Nat.mul_le_mono_l; lia). lia. }
  assert (HL : D + w + 1 <= limit /\ K = 2 * limit + 20) by (split; [unfold limit; nia|reflexivity]). destruct HL as [HL HK].
  assert (Sm : p = Tail -> code_size s <= limit) by (intros ->; destruct HF as (_ & _ & F); cbn iota in F; lia).
  clear Em Hm.
  destruct e as [lit| |cls|id|q|l|l|e|e|e|e|e|e bx f|e t|e|e]; cbn [children intervals] in *;
    match goal with
    | _ : context [map _ l] |- _ => idtac
    | _ => cbn [map list_sum list_max fold_right] in HF |- *; rewrite ?Nat.add_0_r, ?Nat.max_0_r in *
    end.
  - (* literal *) inv_ok. unfold bounded, bonus. cbn [code_size]. destruct p; try specialize (Sm eq_refl); lia.
  - assert (exists v y', c = CMatchNext v s (CError any_desc CFailure) /\ y = y' /\ closures y' = closures x) as (v & y' & -> & -> & Ey).
    { destruct m; inv_ok; [do 2 eexists; repeat split; reflexivity|]. apply next_free_var_ok in E. destruct E as [_ E2]. do 2 eexists. split; [reflexivity|]. split; [reflexivity|]. rewrite E2. reflexivity. }
    unfold bounded, bonus. cbn [code_size]. rewrite Ey. destruct p; try specialize (Sm eq_refl); lia.
  - (* class *) inv_ok. assert (Ey : closures c0 = closures x).
    { destruct m; inv_ok; [reflexivity|]. apply next_free_var_ok in E. destruct E as [_ E2]. rewrite E2. reflexivity. }
    match goal with Q : compile_condition _ = COk ?k |- _ => pose proof (condition_size Q) as Ck end.
    unfold next_mark in *. inv_ok. unfold bounded, bonus. cbn [code_size closures]. rewrite Ey.
    replace (S (length cls) * K) with (K + length cls * K) by lia. assert (length cls * 20 <= length cls * K) by (apply Nat.mul_le_mono_l; lia).
    destruct p; try specialize (Sm eq_refl); lia.
  - assert (exists a, code_size c = a + code_size s /\ a <= 3 + w /\ closures y = closures x) as (a & Ec & La & Ey).
    { destruct m; inv_ok; [exists 2; cbn; split; [lia|]; split; [lia|reflexivity]|]. apply pop_vars_ok in E. destruct E as (_ & E2 & E3).
      exists (2 + length l). cbn. split; [lia|]. split; [rewrite E2; specialize (HW eq_refl i (or_introl eq_refl)); lia|]. rewrite E3. reflexivity. }
    unfold bounded, bonus. rewrite Ec, Ey. destruct p; try specialize (Sm eq_refl); lia.
  - assert (exists a, code_size c = a + code_size s /\ a <= 3 + w /\ closures y = closures x) as (a & Ec & La & Ey).
    { destruct m; inv_ok; [exists 2; cbn; split; [lia|]; split; [lia|reflexivity]|]. apply pop_vars_ok in E. destruct E as (_ & E2 & E3).
      exists (2 + length l). cbn. split; [lia|]. split; [rewrite E2; specialize (HW eq_refl i (or_introl eq_refl)); lia|]. rewrite E3. reflexivity. }
    unfold bounded, bonus. rewrite Ec, Ey. destruct p; try specialize (Sm eq_refl); lia.
  - (* sequence *) destruct l as [|i0 l].
    + cbn in H. inv_ok. unfold bounded, bonus. cbn [map list_sum fold_right]. destruct p; try specialize (Sm eq_refl); lia.
    + pose proof (@seq_size _ _ m _ _ _ SH SI p (i0 :: l) s x c y ltac:(discriminate) HO H CM) as B.
      unfold bounded in *. eapply Nat.le_trans; [apply B; eapply fit_lower; [exact HF|lia]|]. lia.
  - (* choice *) destruct (success_as_closure s x) as [s1 x1] eqn:Es. pose proof (sh_closure Es) as Sc.
    unfold next_mark, next_branch in H. cbn [prefix_uid mark_uid branch_uid counter_uid closure_uid closures frees marks muts ncomb] in H.
    apply cbind_ok in H. destruct H as ([bs y'] & E & H). destruct bs as [|b r]; [discriminate|]. apply COk_inj, pair_inj in H. destruct H as [<- <-].
    assert (Ncl : ncomb x1 = 0 /\ table_size (closures x1) <= table_size (closures x) + (if 0 <? ncomb x then S (D + w) + code_size s else 0)
       /\ code_size s1 <= if 0 <? ncomb x then 1 + D + w else code_size s).
    { unfold success_as_closure in Es. destruct HF as (F1 & F2 & _). destruct (0 <? ncomb x) eqn:En; apply pair_inj in Es; destruct Es as [<- <-]; cbn [ncomb closures code_size].
      - split; [reflexivity|]. rewrite table_size_app. change (table_size [(S (closure_uid x), ?k)]) with (closure_size k + 0). unfold closure_size. cbn [kmuts kfrees kmarks kbody]. lia.
      - apply Nat.ltb_ge in En. lia. }
    destruct Ncl as (Nc & Cl & Sz). set (hh := list_max (map (height G fuel) l)) in *.
    assert (CM' : forallb (calm G fuel m Tail) l = true) by (destruct p; [exact CM|exact CM|discriminate CM]).
    pose proof HF as (F1 & F2 & F3).
    assert (HS1 : S (code_size s1) + step * hh <= limit).
    { destruct (0 <? ncomb x) eqn:En.
      - unfold limit. assert (step * S hh <= step * D) by (apply Nat.mul_le_mono_l; lia). lia.
      - destruct p; [lia| |discriminate CM]. apply Nat.ltb_ge in En. lia. }
    destruct Sc. eapply branches_size with (hh := hh) in E.
    2: exact SH. 2: exact SI. 2: exact Nc. 3: exact HO. 2: { cbn. destruct sh_frees as (xs & Ef & _). rewrite Ef, app_length in F1. lia. }
    2: { cbn. rewrite app_length. cbn. rewrite sh_marks, sh_muts. lia. }
    2: exact HS1. 2: unfold hh; lia. 2: exact CM'.
    cbn [closures push_mut with_muts] in E. unfold bounded. cbn [code_size]. rewrite choice_code_size. cbn [map length] in E.
    change (list_sum (?a :: ?b)) with (a + list_sum b) in E. destruct p; cbn [bonus]; try specialize (Sm eq_refl); [destruct (0 <? ncomb x); lia| |discriminate CM].
    destruct (0 <? ncomb x); lia.
  - (* e* *) destruct HF as (F1 & F2 & F3). destruct m.
    + inv_ok. unfold repeat_code in H. cbn [next_mark next_counter Nat.ltb Nat.leb] in H. inv_ok.
      pose proof (RE _ _ _ _ E0 F1 ltac:(lia)) as B. unfold bounded, bonus. cbn [code_size closures with_ncomb]. destruct p; try specialize (Sm eq_refl); lia.
    + apply cbind_ok in H. destruct H as ([r x1] & E1 & H). destruct (open_scope (card G e) x1) as [sc x2] eqn:E2.
      apply cbind_ok in H. destruct H as ([body x4] & E3 & H). apply cbind_ok in E3. destruct E3 as ([body' x4'] & E3 & E4). apply COk_inj, pair_inj in E4. destruct E4 as [<- <-].
      apply cbind_ok in H. destruct H as (x5 & E5 & H). unfold repeat_code in H. cbn [next_mark next_counter Nat.ltb Nat.leb] in H. apply COk_inj, pair_inj in H. destruct H as [<- <-].
      pose proof (PA eq_refl e (or_introl eq_refl) _ _ _ _ _ _ _ _ _ E1 E2 E3 E5 CM ltac:(cbn [code_size push_mut with_muts frees]; rewrite (open_frees E2); specialize (HW eq_refl e (or_intror (or_introl eq_refl))); lia) ltac:(lia)) as B.
      unfold bounded, bonus. cbn [code_size closures]. destruct p; try specialize (Sm eq_refl); lia.
  - (* e+ *) destruct HF as (F1 & F2 & F3). destruct m.
    + inv_ok. unfold repeat_code in H. cbn [next_mark next_counter Nat.ltb Nat.leb] in H. inv_ok.
      pose proof (RE _ _ _ _ E0 F1 ltac:(lia)) as B. unfold bounded, bonus. cbn [code_size closures with_ncomb]. destruct p; try specialize (Sm eq_refl); lia.
    + apply cbind_ok in H. destruct H as ([r x1] & E1 & H). destruct (open_scope (card G e) x1) as [sc x2] eqn:E2.
      apply cbind_ok in H. destruct H as ([body x4] & E3 & H). apply cbind_ok in E3. destruct E3 as ([body' x4'] & E3 & E4). apply COk_inj, pair_inj in E4. destruct E4 as [<- <-].
      apply cbind_ok in H. destruct H as (x5 & E5 & H). unfold repeat_code in H. cbn [next_mark next_counter Nat.ltb Nat.leb] in H. apply COk_inj, pair_inj in H. destruct H as [<- <-].
      pose proof (PA eq_refl e (or_introl eq_refl) _ _ _ _ _ _ _ _ _ E1 E2 E3 E5 CM ltac:(cbn [code_size push_mut with_muts frees]; rewrite (open_frees E2); specialize (HW eq_refl e (or_intror (or_introl eq_refl))); lia) ltac:(lia)) as B.
      unfold bounded, bonus. cbn [code_size closures]. destruct p; try specialize (Sm eq_refl); lia.
  - (* e? *) destruct HF as (F1 & F2 & F3). destruct m.
    + inv_ok. unfold optional_code in H. cbn [next_mark] in H. inv_ok.
      pose proof (RE _ _ _ _ E0 F1 ltac:(lia)) as B. unfold bounded, bonus. cbn [code_size closures with_ncomb]. destruct p; try specialize (Sm eq_refl); lia.
    + apply cbind_ok in H. destruct H as ([r x1] & E1 & H). destruct (open_scope (card G e) x1) as [sc x2] eqn:E2.
      apply cbind_ok in H. destruct H as ([body x4] & E3 & H). apply cbind_ok in E3. destruct E3 as ([body' x4'] & E3 & E4). apply COk_inj, pair_inj in E4. destruct E4 as [<- <-].
      apply cbind_ok in H. destruct H as (x5 & E5 & H). unfold optional_code in H. cbn [next_mark] in H. apply COk_inj, pair_inj in H. destruct H as [<- <-].
      pose proof (PA eq_refl e (or_introl eq_refl) _ _ _ _ _ _ _ _ _ E1 E2 E3 E5 CM ltac:(cbn [code_size push_mut with_muts frees]; rewrite (open_frees E2); specialize (HW eq_refl e (or_intror (or_introl eq_refl))); lia) ltac:(lia)) as B.
      unfold bounded, bonus. cbn [code_size closures]. destruct p; try specialize (Sm eq_refl); lia.
  - (* !e *) destruct HF as (F1 & F2 & F3). destruct m; [|discriminate]. cbn [next_mark] in H. inv_ok.
    pose proof (RE _ _ _ _ E0 F1 ltac:(cbn [muts marks]; lia)) as B. cbn [closures] in B. unfold bounded, bonus. cbn [code_size closures with_ncomb]. destruct p; try specialize (Sm eq_refl); lia.
  - (* &e *) destruct HF as (F1 & F2 & F3). destruct m; [|discriminate]. cbn [next_mark] in H. inv_ok.
    pose proof (RE _ _ _ _ E0 F1 ltac:(cbn [muts marks]; lia)) as B. cbn [closures] in B. unfold bounded, bonus. cbn [code_size closures with_ncomb]. destruct p; try specialize (Sm eq_refl); lia.
  - (* e > f *) destruct m.
    + pose proof (SI _ _ _ _ _ _ (Forall_inv HO) H CM ltac:(eapply fit_lower; [exact HF|lia])) as B. unfold bounded in *. lia.
    + apply cbind_ok in H. destruct H as ([r x1] & E1 & H). destruct (open_scope (card G e) x1) as [sc x2] eqn:E2.
      apply cbind_ok in H. destruct H as ([body x4] & E3 & H). apply cbind_ok in E3. destruct E3 as ([body' x4'] & E3 & E4). apply COk_inj, pair_inj in E4. destruct E4 as [<- <-].
      apply cbind_ok in H. destruct H as (x5 & E5 & H). apply COk_inj, pair_inj in H. destruct H as [<- <-].
      destruct HF as (F1 & F2 & F3). specialize (HW eq_refl e (or_intror (or_introl eq_refl))). pose proof (open_frees E2) as Lf.
      apply close_scope_ok in E5. destruct E5 as [_ ->]. apply next_free_var_ok in E1. destruct E1 as [_ E1].
      apply pair_inj in E2. destruct E2 as [Esc E2].
      pose proof (SI _ _ _ _ _ _ (Forall_inv HO) E3 CM) as B. unfold bounded in *.
      assert (Cx : closures x2 = closures x) by (rewrite <- E2, E1; reflexivity). rewrite Cx in B.
      assert (Fx : fit (acted p) (CLetAct r f (unit_variant f (is_unit G e)) bx (frees x2) s) x2 (height G fuel e)).
      { split; [lia|]. split; [rewrite <- E2, E1; cbn [muts marks with_frees fresh_vars]; cbn; lia|].
        destruct p; cbn [acted]; auto. cbn [code_size]. rewrite Lf. lia. }
      specialize (B Fx). cbn [closures restore_scope with_ncomb with_muts with_frees] in *.
      destruct p; cbn [acted bonus code_size] in *; rewrite ?Lf in B; lia.
  - (* e : t *) pose proof (SI _ _ _ _ _ _ (Forall_inv HO) H CM ltac:(eapply fit_lower; [exact HF|lia])) as B. unfold bounded in *. lia.
  - (* ... *) destruct m.
    + pose proof (SI _ _ _ _ _ _ (Forall_inv HO) H CM ltac:(eapply fit_lower; [exact HF|lia])) as B. unfold bounded in *. lia.
    + cbn [next_mark] in H. apply cbind_ok in H. destruct H as ([r x2] & E1 & H).
      apply cbind_ok in H. destruct H as ([body x4] & E3 & H). apply cbind_ok in E3. destruct E3 as ([body' x4'] & E3 & E4). apply COk_inj, pair_inj in E4. destruct E4 as [<- <-].
      apply COk_inj, pair_inj in H. destruct H as [<- <-].
      apply next_free_var_skip_ok in E1. destruct E1 as (a & b & Fr & Lb & ->). cbn [frees] in Fr. destruct HF as (F1 & F2 & F3).
      rewrite Fr, !app_length in F1. cbn [length] in F1.
      pose proof (SI _ _ _ _ _ _ (Forall_inv HO) E3 CM) as B. unfold bounded in *. 
      match type of B with fit ?p0 ?s0 ?x0 ?h0 -> _ => assert (Fx : fit p0 s0 x0 h0) end.
      { split; [cbn; rewrite app_length; lia|]. split; [cbn; rewrite app_length; cbn; lia|]. destruct p; cbn [code_size]; [lia|exact F3|exact I]. }
      specialize (B Fx). cbn [closures pop_mark push_mark restore_scope with_ncomb with_marks with_muts with_frees code_size] in *.
      destruct p; cbn [bonus code_size] in *; lia.
  - (* ...  *) destruct m.
    + pose proof (SI _ _ _ _ _ _ (Forall_inv HO) H CM ltac:(eapply fit_lower; [exact HF|lia])) as B. unfold bounded in *. lia.
    + cbn [next_mark] in H. apply cbind_ok in H. destruct H as ([r x2] & E1 & H).
      apply cbind_ok in H. destruct H as ([body x4] & E3 & H). apply cbind_ok in E3. destruct E3 as ([body' x4'] & E3 & E4). apply COk_inj, pair_inj in E4. destruct E4 as [<- <-].
      apply COk_inj, pair_inj in H. destruct H as [<- <-].
      apply next_free_var_skip_ok in E1. destruct E1 as (a & b & Fr & Lb & ->). cbn [frees] in Fr. destruct HF as (F1 & F2 & F3).
      rewrite Fr, !app_length in F1. cbn [length] in F1.
      pose proof (SI _ _ _ _ _ _ (Forall_inv HO) E3 CM) as B. unfold bounded in *. 
      match type of B with fit ?p0 ?s0 ?x0 ?h0 -> _ => assert (Fx : fit p0 s0 x0 h0) end.
      { split; [cbn; rewrite app_length; lia|]. split; [cbn; rewrite app_length; cbn; lia|]. destruct p; cbn [code_size]; [lia|exact F3|exact I]. }
      specialize (B Fx). cbn [closures pop_mark push_mark restore_scope with_ncomb with_marks with_muts with_frees code_size] in *.
      destruct p; cbn [bonus code_size] in *; lia.
Qed.
End Size.
