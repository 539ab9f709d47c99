(** Type inference, exactly: the bottom-up pass. *)
From Verif Require Import Base Grammar WellFormed Analysis AnalysisFacts Typing TypeRules SurfaceFacts RefFacts DepthFacts TypingSound TypingTop TypingVerdict FrontSpec TreeSpec TreeFacts TreeKinds TypeSpec TypeDen.
Set Implicit Arguments. Unset Strict Implicit.
Open Scope string_scope. Open Scope nat_scope. Open Scope list_scope.

Definition filled (T : list ity) (j : nat) : Prop := exists u, nth_error T j = Some u /\ u <> IInfer.
Definition ext (T T' : list ity) : Prop := forall j u, nth_error T j = Some u -> u <> IInfer -> nth_error T' j = Some u.
Lemma ext_refl T : ext T T. Proof. intros j u H _. exact H. Qed.
Lemma ext_trans T1 T2 T3 : ext T1 T2 -> ext T2 T3 -> ext T1 T3. Proof. intros A B j u H N. apply B; [|exact N]. apply A; assumption. Qed.
Lemma filled_ext T T' j : ext T T' -> filled T j -> filled T' j. Proof. intros X (u & Eu & N). exists u. split; [apply X; assumption|exact N]. Qed.

(** What the rest of the grammar tells. *)
Definition facts_of (E : tenv) : rust_facts := mkFacts (ret_of E) (span_ty E) (range_ty E).

Section Surface.
Variable G : grammar.
Variable E : tenv.
Variable rs : list (string * tree).
Variable own : nat -> string.
Variable rk : string -> nat.
Hypothesis HG : typable G.
Hypothesis HO : owned G own.
Hypothesis RS : Forall2 (fun r q => rname r = fst q /\ stored G rs (rexpr r) (snd q)) (rules G) rs.
Hypothesis HRK : forall n e id, In (n, e) rs -> needs rs e id -> rk id < rk n.
Local Notation last := (length (exprs G) - 1).
Hypothesis ROOTS : forall rl, In rl (rules G) -> rexpr rl < last.
Local Notation has := (has rs (facts_of E)).
Local Notation have := (have rs (facts_of E)).
Local Notation stored := (stored G rs).
Ltac same_exprs := repeat match goal with E : expr_of G ?i = Some ?a, E' : expr_of G ?i = Some ?b |- _ =>
   first [constr_eq a b; clear E' | rewrite E in E'; first [discriminate E' | injection E' as ?; subst]] end.

Lemma stored_has_both : (forall t y, has t y -> forall i t', stored i t -> stored i t' -> has t' y) /\
  (forall l ys, have l ys -> forall js l', Forall2 stored js l -> Forall2 stored js l' -> have l' ys).
Proof.
  apply has_mutind; intros; try (match goal with S1 : stored ?i _, S2 : stored ?i _ |- _ => inversion S1; subst; inversion S2; subst; same_exprs end; try congruence; econstructor; eauto; fail).
  - inversion H2; subst; inversion H3; subst; same_exprs; try congruence; exact (ha_call H H0).
  - match goal with A : Forall2 _ _ [], B : Forall2 _ _ _ |- _ => inversion A; subst; inversion B; subst end; constructor.
  - match goal with A : Forall2 _ ?js (_ :: _), B : Forall2 _ ?js ?l' |- have ?l' _ => inversion A; subst; inversion B; subst end. constructor; eauto.
Qed.
Lemma stored_has t y i t' : has t y -> stored i t -> stored i t' -> has t' y. Proof. intros H. exact (proj1 stored_has_both t y H i t'). Qed.

Definition nonvoid (x : nat) : Prop := exists t y, stored x t /\ has t y /\ nothing y = false.
Inductive keptfrom : nat -> nat -> Prop :=
| kf_self x : keptfrom x x
| kf_step x e c j : expr_of G x = Some e -> In c (visits e) -> nonvoid x -> keptfrom c j -> keptfrom x j.
(** What the type of [i] may refer to. *)
Definition ref_ok (i j : nat) : Prop := keptfrom i j \/ (exists rl, In rl (rules G) /\ keptfrom (rexpr rl) j) \/ j = last.
Lemma ref_up i e c j : expr_of G i = Some e -> In c (visits e) -> nonvoid i -> ref_ok c j -> ref_ok i j.
Proof. intros Ee Ic N [K|K]; [left; econstructor; eassumption|right; exact K]. Qed.

Record Inv (P : nat -> Prop) (T : list ity) : Prop := {
  in_len : length T = length (exprs G);
  in_span : nth_error T last = Some (IRegular (TRust (span_ty E)));
  in_good : forall i u, P i -> i < last -> nth_error T i = Some u -> u <> IInfer ->
    (exists t y, stored i t /\ has t y /\ den (ref_ok i) T u y) /\ forall j, spos G i j -> filled T j
}.
Lemma spos_le x j : x < length (exprs G) -> spos G x j -> j <= x.
Proof.
  intros L S0. induction S0 as [x|x e c y Ex Ic R IH]; [lia|]. pose proof (tg_children HG Ex) as F. rewrite Forall_forall in F. specialize (F c (visits_children Ic)).
  specialize (IH ltac:(lia)). lia.
Qed.
Lemma set_ext T i u : i < length T -> nth_error T i = Some IInfer -> ext T (update T i u).
Proof. intros L Q j v Ej N. rewrite nth_update by exact L. destruct (Nat.eqb_spec j i); [subst; congruence|exact Ej]. Qed.
Lemma Inv_set P T i t u y : Inv P T -> i < last -> nth_error T i = Some IInfer -> stored i t -> has t y -> den (ref_ok i) T u y ->
  (forall e c j, expr_of G i = Some e -> In c (visits e) -> spos G c j -> filled T j) -> Inv P (update T i u).
Proof.
  intros [IL IS IG] Li Ti S0 H0 D0 FL. assert (L : i < length T) by lia. pose proof (set_ext u L Ti) as X.
  assert (UN : u <> IInfer) by (intros ->; exact (den_infer D0)).
  split.
  - rewrite length_update; assumption.
  - rewrite nth_update by exact L. destruct (Nat.eqb_spec last i); [lia|exact IS].
  - intros j v Pj Lj Ej Nv. rewrite nth_update in Ej by exact L. destruct (Nat.eqb_spec j i) as [->|NE].
    + assert (v = u) by congruence. subst v. split; [exists t, y; repeat split; try assumption; eapply den_keep; [|exact D0]; intros; split; [assumption|apply X; assumption]|].
      intros k Sk. inversion Sk as [x|x e c z Ex Ic R]; subst; [exists u; split; [rewrite nth_update by exact L; rewrite Nat.eqb_refl; reflexivity|exact UN]|].
      eapply filled_ext; [exact X|]. eapply FL; eassumption.
    + destruct (IG j v Pj Lj Ej Nv) as ((t' & y' & A & B & C) & F). split; [exists t', y'; repeat split; try assumption; eapply den_keep; [|exact C]; intros; split; [assumption|apply X; assumption]|].
      intros k Sk. eapply filled_ext; [exact X|]. auto.
Qed.

(** All rules have a type. *)
Definition roots_filled (T : list ity) : Prop := forall rl, In rl (rules G) -> filled T (rexpr rl).
Lemma roots_ext T T' : ext T T' -> roots_filled T -> roots_filled T'. Proof. intros X H rl I. exact (filled_ext X (H rl I)). Qed.

Variable P : nat -> Prop.
Hypothesis PR : forall rl, In rl (rules G) -> P (rexpr rl).
Definition free (path : list string) (T : list ity) (i : nat) : Prop := roots_filled T \/ ((forall j, P j) /\ In (own i) path).
Definition below_path (path : list string) (t : tree) : Prop := forall id, needs rs t id -> forall p, In p path -> rk id < rk p.
(** What a run may change. *)
Definition unchanged (path : list string) (T T' : list ity) (l : list nat) : Prop :=
  (roots_filled T -> forall j, (forall c, In c l -> ~ spos G c j) -> nth_error T' j = nth_error T j) /\
  (forall j, (forall c, In c l -> ~ spos G c j) -> (exists p, In p path /\ rk p <= rk (own j)) -> nth_error T' j = nth_error T j).
Lemma unchanged_refl path T l : unchanged path T T l. Proof. split; reflexivity. Qed.
Lemma unchanged_trans path T1 T2 T3 l1 l2 : ext T1 T2 -> unchanged path T1 T2 l1 -> unchanged path T2 T3 l2 -> unchanged path T1 T3 (l1 ++ l2).
Proof.
  intros X [A1 A2] [B1 B2]. split.
  - intros RF j N. rewrite (B1 (roots_ext X RF)), A1; auto; intros c Ic; apply N, in_or_app; auto.
  - intros j N Q. rewrite B2, A2; auto; intros c Ic; apply N, in_or_app; auto.
Qed.

Definition Res (path : list string) (i : nat) (t : tree) (T : list ity) (u : ity) (st' : tst) : Prop :=
  (terr st' = true /\ forall y, ~ has t y) \/
  (terr st' = false /\ Inv P (tys st') /\ ext T (tys st') /\ nth_error (tys st') i = Some u /\ (exists y, has t y /\ den (ref_ok i) (tys st') u y) /\ unchanged path T (tys st') [i]).
Definition Ress (path : list string) (js : list nat) (l : list tree) (T : list ity) (us : list ity) (st' : tst) : Prop :=
  (terr st' = true /\ forall ys, ~ have l ys) \/
  (terr st' = false /\ Inv P (tys st') /\ ext T (tys st') /\ Forall2 (fun j u => nth_error (tys st') j = Some u) js us /\
   (exists ys, have l ys /\ Forall2 (fun ju y => den (ref_ok (fst ju)) (tys st') (snd ju) y) (combine js us) ys) /\ unchanged path T (tys st') js).
Definition good_ve (ve : list string -> nat -> tst -> wres (ity * tst)) : Prop := forall path i t st u st', stored i t -> i < last -> (forall j, spos G i j -> P j) -> free path (tys st) i -> below_path path t ->
  Inv P (tys st) -> terr st = false -> ve path i st = WOk (u, st') -> Res path i t (tys st) u st'.
Definition keeps_ve (ve : list string -> nat -> tst -> wres (ity * tst)) : Prop := forall path i st u st', ve path i st = WOk (u, st') -> keeps_err st st'.

Lemma free_ext path T T' i : ext T T' -> free path T i -> free path T' i.
Proof. intros X [A|A]; [left; exact (roots_ext X A)|right; exact A]. Qed.
Lemma sexprs_keeps ve path : keeps_ve ve -> forall js st us st', sexprs (ve path) js st = WOk (us, st') -> keeps_err st st'.
Proof.
  intros K. induction js as [|j js IH]; intros st us st' H; cbn in H; [apply WOk_inj', pair_inj in H; destruct H as [_ <-]; intros X; exact X|].
  apply wbind_ok in H. destruct H as ([u s1] & E1 & H). apply wbind_ok in H. destruct H as ([us' s2] & E2 & H). apply WOk_inj', pair_inj in H. destruct H as [_ <-]. cbn [fst snd] in *.
  intros X. exact (IH _ _ _ E2 (K _ _ _ _ _ E1 X)).
Qed.
Lemma list_run ve path : good_ve ve -> keeps_ve ve -> forall js l st us st', Forall2 stored js l -> Forall (fun j => j < last /\ (forall k, spos G j k -> P k) /\ free path (tys st) j) js -> Forall (below_path path) l ->
  Inv P (tys st) -> terr st = false -> sexprs (ve path) js st = WOk (us, st') -> Ress path js l (tys st) us st'.
Proof.
  intros GV KV. induction js as [|j js IH]; intros l st us st' F2 FJ FB HI HT H; inversion F2 as [|? t ? l' Sj F2']; subst; cbn in H.
  { apply WOk_inj', pair_inj in H. destruct H as [<- <-]. right. split; [exact HT|]. split; [exact HI|]. split; [apply ext_refl|]. split; [constructor|]. split; [exists []; split; constructor|apply unchanged_refl]. }
  pose proof (Forall_inv FJ) as (Lj & Pj & Fj). apply Forall_inv_tail in FJ. pose proof (Forall_inv FB) as Bj. apply Forall_inv_tail in FB.
  apply wbind_ok in H. destruct H as ([u s1] & E1 & H). apply wbind_ok in H. destruct H as ([us' s2] & E2 & H). apply WOk_inj', pair_inj in H. destruct H as [<- <-]. cbn [fst snd] in *.
  destruct (GV _ _ _ _ _ _ Sj Lj Pj Fj Bj HI HT E1) as [[X N]|(X & I1 & X1 & U1 & (y & Hy & Dy) & C1)].
  { left. split; [exact (sexprs_keeps KV E2 X)|]. intros ys Q. inversion Q; subst. eapply N; eassumption. }
  assert (FJ1 : Forall (fun j => j < last /\ (forall k, spos G j k -> P k) /\ free path (tys s1) j) js).
  { eapply Forall_impl; [|exact FJ]. intros a (A & B & C). repeat split; auto. exact (free_ext X1 C). }
  destruct (IH _ _ _ _ F2' FJ1 FB I1 X E2) as [[X' N]|(X' & I2 & X2 & U2 & (ys & Hys & Dys) & C2)].
  { left. split; [exact X'|]. intros zs Q. inversion Q; subst. eapply N; eassumption. }
  right. split; [exact X'|]. split; [exact I2|]. split; [exact (ext_trans X1 X2)|].
  assert (NU : u <> IInfer) by (intros ->; exact (den_infer Dy)).
  split; [constructor; [exact (X2 _ _ U1 NU)|exact U2]|]. split; [exists (y :: ys)|exact (@unchanged_trans path _ _ _ [j] js X1 C1 C2)].
  split; [constructor; assumption|]. cbn [combine]. constructor; [|exact Dys]. cbn [fst snd]. eapply den_keep; [|exact Dy]. intros k v Rk Ek Nk. split; [exact Rk|exact (X2 _ _ Ek Nk)].
Qed.
Lemma spos_kid i e c j : expr_of G i = Some e -> In c (visits e) -> spos G c j -> spos G i j. Proof. intros A B C. exact (sp_child A B C). Qed.
Lemma kid_less i e c : expr_of G i = Some e -> In c (visits e) -> c < i.
Proof. intros A B. pose proof (tg_children HG A) as F. rewrite Forall_forall in F. exact (F c (visits_children B)). Qed.
Lemma finish path i t e st1 T u y : stored i t -> i < last -> free path T i -> expr_of G i = Some e -> Inv P (tys st1) -> ext T (tys st1) -> nth_error T i = Some IInfer -> has t y ->
  den (ref_ok i) (tys st1) u y -> unchanged path T (tys st1) (visits e) -> (forall c, In c (visits e) -> P c /\ filled (tys st1) c) -> terr st1 = false -> Res path i t T u (tset i u st1).
Proof.
  intros S0 Li FR Ee HI X Ti H0 D0 [U1 U2] FL HT. right. assert (NS : forall c, In c (visits e) -> ~ spos G c i).
  { intros c Ic SP. pose proof (kid_less Ee Ic). pose proof (spos_le (x := c) (j := i) ltac:(lia) SP). lia. }
  assert (T1 : nth_error (tys st1) i = Some IInfer).
  { rewrite <- Ti. destruct FR as [FR|[_ FR]]; [exact (U1 FR i NS)|]. apply (U2 i NS). exists (own i). split; [exact FR|lia]. }
  assert (L : i < length (tys st1)) by (rewrite (in_len HI); lia).
  cbn [tset tys terr]. split; [exact HT|]. pose proof (set_ext u L T1) as XS. split.
  { eapply Inv_set; try eassumption. intros e' c j Ee' Ic SP. assert (e' = e) by congruence. subst e'. destruct (FL c Ic) as (Pc & v & Ev & Nv). pose proof (kid_less Ee Ic).
    exact (proj2 (in_good HI Pc ltac:(lia) Ev Nv) j SP). }
  split; [exact (ext_trans X XS)|]. split; [rewrite nth_update by exact L; rewrite Nat.eqb_refl; reflexivity|]. split.
  { exists y. split; [exact H0|]. eapply den_keep; [|exact D0]. intros j v Rj Ej Nj. split; [exact Rj|exact (XS _ _ Ej Nj)]. }
  assert (SUB : forall j, (forall c, In c [i] -> ~ spos G c j) -> j <> i /\ forall c, In c (visits e) -> ~ spos G c j).
  { intros j N. split; [intros ->; apply (N i (or_introl eq_refl)); constructor|]. intros c Ic SP. apply (N i (or_introl eq_refl)). exact (spos_kid Ee Ic SP). }
  split; intros; destruct (SUB _ H) as [NE N] || destruct (SUB _ H1) as [NE N]; rewrite nth_update by exact L; (destruct (Nat.eqb_spec j i); [contradiction|]); auto.
Qed.
Lemma finish_leaf path i t e st u y : stored i t -> i < last -> free path (tys st) i -> expr_of G i = Some e -> visits e = [] -> Inv P (tys st) -> nth_error (tys st) i = Some IInfer -> has t y ->
  (forall R T, den R T u y) -> terr st = false -> Res path i t (tys st) u (tset i u st).
Proof. intros. eapply finish; try eassumption; auto using ext_refl. - rewrite H3. apply unchanged_refl. - rewrite H3. intros c []. Qed.

(** An error stays. *)
Lemma err_res path i t T u st' : terr st' = true -> (forall y, ~ has t y) -> Res path i t T u st'. Proof. left. auto. Qed.
Lemma sexpr_keeps k : keeps_ve (sexpr G E k). Proof. intros path i st u st' H. exact (sexpr_err H). Qed.

Lemma lift_ref i e c T u y z : expr_of G i = Some e -> In c (visits e) -> (nothing z = false -> nonvoid i) -> nothing y = nothing z -> den (ref_ok c) T u y -> den (ref_ok i) T u y.
Proof.
  intros Ee Ic NV Q D. destruct (nothing y) eqn:N; [eapply den_void; eassumption|]. eapply den_keep; [|exact D]. intros j v Rj Ej Nj. split; [|exact Ej]. eapply ref_up; eauto.
Qed.
(** The visits of one operand. *)
Lemma one_run path k i e c t t' st u st' : good_ve (sexpr G E k) -> stored i t -> i < last -> (forall j, spos G i j -> P j) -> free path (tys st) i -> expr_of G i = Some e -> visits e = [c] -> stored c t' ->
  below_path path t' -> Inv P (tys st) -> terr st = false -> sexpr G E k path c st = WOk (u, st') -> Res path c t' (tys st) u st'.
Proof.
  intros GV S0 Li PI FR Ee V S1 B HI HT H. assert (Ic : In c (visits e)) by (rewrite V; left; reflexivity). pose proof (kid_less Ee Ic).
  eapply (GV path c t' st u st'); try eassumption; [lia|intros j SP; apply PI; exact (spos_kid Ee Ic SP)|].
  destruct FR as [FR|[FA FR]]; [left; exact FR|right]. split; [exact FA|]. rewrite (ow_child HO Ee (visits_children Ic)). exact FR.
Qed.
Lemma den_filled R T u y c : den R T u y -> nth_error T c = Some u -> filled T c. Proof. intros D Q. exists u. split; [exact Q|]. intros ->. exact (den_infer D). Qed.
Lemma call_found i id t : stored i t -> expr_of G i = Some (ENT id) -> exists b rl, t = XCall [id] /\ rule_called rs [id] = Some b /\ find_rule G id = Some rl /\ In rl (rules G) /\ rname rl = id /\ stored (rexpr rl) b /\ In (id, b) rs.
Proof.
  intros S0 Ee. inversion S0 as [| | |? id0 t0 Q0 R0| | | | | | | | | | | |]; subst; same_exprs. pose proof (found RS id0) as F. destruct (find_rule G id0) as [rl|] eqn:Q; [|congruence]. destruct F as (b & Qb & Sb).
  destruct (find_rule_name Q) as [RN RI]. exists b, rl. repeat split; try assumption. exact (called_rule Qb).
Qed.
Lemma nth_error_ext' A (l m : list A) : (forall j, nth_error l j = nth_error m j) -> l = m.
Proof.
  revert m. induction l as [|a l IH]; intros [|b m] H; [reflexivity|discriminate (H 0)|discriminate (H 0)|]. pose proof (H 0) as Q. cbn in Q. injection Q as ->. f_equal. apply IH. intros j. exact (H (S j)).
Qed.
Lemma update_same (T : list ity) i u : nth_error T i = Some u -> update T i u = T.
Proof.
  intros Q. assert (L : i < length T) by (apply nth_error_Some; congruence). apply nth_error_ext'. intros j. rewrite nth_update by exact L. destruct (Nat.eqb_spec j i); congruence.
Qed.

Lemma spos_own x j : spos G x j -> own j = own x.
Proof. induction 1 as [x|x e c y Ex Ic R IH]; [reflexivity|]. rewrite IH. exact (ow_child HO Ex (visits_children Ic)). Qed.
Lemma ref_root rl i j : In rl (rules G) -> ref_ok (rexpr rl) j -> ref_ok i j.
Proof. intros I [K|K]; [right; left; exists rl; auto|right; exact K]. Qed.
Lemma dens_of path T js us ys i e : expr_of G i = Some e -> (forall c, In c js -> In c (visits e)) -> (nothing path = false -> nonvoid i) -> nothing path = false ->
  Forall2 (fun j u => nth_error T j = Some u) js us -> Forall2 (fun ju y => den (ref_ok (fst ju)) T (snd ju) y) (combine js us) ys -> dens (ref_ok i) T js ys.
Proof.
  intros Ee IV NV NP F. revert ys. induction F as [|j u js us Ej F IH]; intros ys H; cbn [combine] in H; inversion H as [|? y ? ys' D H']; subst; [constructor|]. cbn [fst snd] in D.
  econstructor; [|exact Ej| |apply IH; [intros c Ic; apply IV; right; exact Ic|exact H']].
  - left. eapply kf_step; [exact Ee|apply IV; left; reflexivity|exact (NV NP)|constructor].
  - eapply den_keep; [|exact D]. intros k v Rk Ek _. split; [|exact Ek]. eapply ref_up; [exact Ee|apply IV; left; reflexivity|exact (NV NP)|exact Rk].
Qed.
Lemma dens_any R T js us ys : (forall ju y, In ju (combine js us) -> den (fun _ => True) T (snd ju) y -> den R T (snd ju) y) ->
  Forall2 (fun j u => nth_error T j = Some u) js us -> Forall2 (fun ju y => den (ref_ok (fst ju)) T (snd ju) y) (combine js us) ys -> dens (fun _ => True) T js ys.
Proof.
  intros _ F. revert ys. induction F as [|j u js us Ej F IH]; intros ys H; cbn [combine] in H; inversion H as [|? y ? ys' D H']; subst; [constructor|]. cbn [fst snd] in D.
  econstructor; [exact Logic.I|exact Ej| |apply IH; exact H']. eapply den_keep; [|exact D]. auto.
Qed.

Lemma surf : forall k, good_ve (sexpr G E k).
Proof.
  induction k as [|k IH]; intros path i t st u st' S0 Li PI FR BP HI HT H; [discriminate|]. cbn [sexpr] in H.
  apply wbind_ok in H. destruct H as (v & Ev & H). apply tget_ok in Ev.
  assert (OLD : v <> IInfer -> WOk (v, st) = WOk (u, st') -> Res path i t (tys st) u st').
  { intros NV Q. apply WOk_inj', pair_inj in Q. destruct Q as [<- <-]. right. split; [exact HT|]. split; [exact HI|]. split; [apply ext_refl|]. split; [exact Ev|].
    split; [|apply unchanged_refl]. destruct (in_good HI (PI i (sp_self G i)) Li Ev NV) as ((t' & y & S1 & H1 & D1) & _). exists y. split; [exact (stored_has H1 S1 S0)|exact D1]. }
  destruct v; try (apply OLD; [discriminate|exact H]). clear OLD.
  destruct (expr_of G i) as [e|] eqn:Ee; [|discriminate]. apply wbind_ok in H. destruct H as ([w s1] & Ew & H). apply wbind_ok in H. destruct H as (u' & Er & H). apply WOk_inj', pair_inj in H. destruct H as [<- <-]. cbn [fst snd] in *.
  (* several operands *)
  assert (LIST : forall js l us s2, visits e = js -> Forall2 stored js l -> Forall (below_path path) l -> sexprs (sexpr G E k path) js st = WOk (us, s2) -> Ress path js l (tys st) us s2).
  { intros js l us s2 V F2 FB H. eapply (list_run (ve := sexpr G E k) (path := path) IH (@sexpr_keeps k)); try eassumption. apply Forall_forall. intros c Ic. rewrite <- V in Ic. pose proof (kid_less Ee Ic).
    split; [lia|]. split; [intros j SP; apply PI; exact (spos_kid Ee Ic SP)|]. destruct FR as [FR|[FA FR]]; [left; exact FR|right]. split; [exact FA|]. rewrite (ow_child HO Ee (visits_children Ic)). exact FR. }
  (* one operand *)
  assert (ONE : forall c t' v s2, visits e = [c] -> stored c t' -> below_path path t' -> sexpr G E k path c st = WOk (v, s2) -> Res path c t' (tys st) v s2).
  { intros c t' v s2 V S1 B H. exact (one_run IH S0 Li PI FR Ee V S1 B HI HT H). }
  (* the end, with one operand *)
  assert (END1 : forall c t' v s2 y, visits e = [c] -> stored c t' -> terr s2 = false -> Inv P (tys s2) -> ext (tys st) (tys s2) -> nth_error (tys s2) c = Some v -> (exists z, den (ref_ok c) (tys s2) v z) ->
     unchanged path (tys st) (tys s2) [c] -> has t y -> den (ref_ok i) (tys s2) u' y -> Res path i t (tys st) u' (tset i u' s2)).
  { intros c t' v s2 y V S1 T2 I2 X2 E2 (z & D2) U2 H2 D3. eapply finish; try eassumption; [rewrite V; exact U2|]. rewrite V. intros d [<-|[]].
    split; [apply PI; refine (spos_kid Ee _ (sp_self G _)); rewrite V; left; reflexivity|]. exact (den_filled D2 E2). }
  assert (ENDL : forall js l us s2 ys y, visits e = js -> Forall2 stored js l -> terr s2 = false -> Inv P (tys s2) -> ext (tys st) (tys s2) -> Forall2 (fun j u => nth_error (tys s2) j = Some u) js us ->
     Forall2 (fun ju y => den (ref_ok (fst ju)) (tys s2) (snd ju) y) (combine js us) ys -> unchanged path (tys st) (tys s2) js -> has t y -> den (ref_ok i) (tys s2) u' y -> Res path i t (tys st) u' (tset i u' s2)).
  { intros js l us s2 ys y V F2 T2 I2 X2 E2 D2 U2 H2 D3. eapply finish; try eassumption; [rewrite V; exact U2|]. rewrite V. intros d Id.
    split; [apply PI; refine (spos_kid Ee _ (sp_self G _)); rewrite V; exact Id|].
    clear - Id E2 D2. revert ys D2. induction E2 as [|j u0 js us Ej F IHF]; intros ys D; [destruct Id|]. cbn [combine] in D. inversion D as [|? y0 ? ys' D0 D']; subst. cbn [fst snd] in D0.
    destruct Id as [<-|Id]; [exact (den_filled D0 Ej)|exact (IHF Id _ D')]. }
  assert (NVI : forall y, has t y -> nothing y = false -> nonvoid i) by (intros y H2 N; exists t, y; auto).
  assert (UP : forall c v y z, has t y -> nothing y = false -> In c (visits e) -> den (ref_ok c) (tys s1) v z -> den (ref_ok i) (tys s1) v z).
  { intros c v y z H2 N Ic D. eapply den_keep; [|exact D]. intros j q Rj Ej _. split; [|exact Ej]. eapply ref_up; eauto. }
  assert (REP : forall c t' v (w : nat -> ty) wy s2, ((w = TOptional /\ wy = YOpt) \/ (w = TList /\ wy = YList)) -> visits e = [c] -> stored c t' -> below_path path t' -> s1 = s2 ->
     (forall y, has t' y -> has t (rep_type wy y)) -> (forall y, has t y -> exists z, has t' z) -> sexpr G E k path c st = WOk (v, s2) -> reduce_unary (tys s1) c (IRegular (w c)) = WOk u' -> Res path i t (tys st) u' (tset i u' s1)).
  { intros c t' v wt wy s2 W V S1 B -> HH HN E2 ER. destruct (ONE c t' v s2 V S1 B E2) as [[X N]|(X & I2 & X2 & V2 & (y & HY & DY) & U2)].
    { left. split; [exact X|]. intros z Q. destruct (HN z Q) as (z' & Q'). eapply N; eassumption. }
    eapply (END1 c t' v); try eassumption; [exists y; exact DY|exact (HH y HY)|].
    destruct (nothing (rep_type wy y)) eqn:NO.
    - refine (@den_void (fun _ => True) (tys s2) _ _ _ _ NO _). eapply unary_den; [exact V2|eapply den_keep; [|exact DY]; auto|exact Logic.I|exact W|exact ER].
    - refine (unary_den V2 _ _ W ER); [refine (UP c v _ y (HH y HY) NO _ DY); rewrite V; left; reflexivity|]. left. eapply kf_step; [exact Ee|rewrite V; left; reflexivity|exact (NVI _ (HH y HY) NO)|constructor]. }
  destruct e as [s| |iv|id|p|l|l|c|c|c|c|c|c b f|c ty|c|c]; cbn [swalk] in Ew.
  - (* string *) apply WOk_inj', pair_inj in Ew. destruct Ew as [<- <-]. apply WOk_inj' in Er. subst u'. inversion S0; subst; same_exprs. eapply finish_leaf; eauto; constructor.
  - apply WOk_inj', pair_inj in Ew. destruct Ew as [<- <-]. apply WOk_inj' in Er. subst u'. inversion S0; subst; same_exprs. eapply finish_leaf; eauto; constructor.
  - apply WOk_inj', pair_inj in Ew. destruct Ew as [<- <-]. apply WOk_inj' in Er. subst u'. inversion S0; subst; same_exprs. eapply finish_leaf; eauto; constructor.
  - (* call *) destruct (call_found S0 Ee) as (b & rl & -> & QB & FN & RI & RN & SB & IB). unfold srule in Ew. rewrite FN in Ew. apply wbind_ok in Ew. destruct Ew as (v & Ev1 & Ew). apply tget_ok in Ev1.
    assert (LOWER : forall p, In p path -> rk id < rk p) by (intros p Ip; apply (BP id); [econstructor; exact QB|exact Ip]).
    assert (END : forall s2 v, Inv P (tys s2) -> ext (tys st) (tys s2) -> nth_error (tys s2) (rexpr rl) = Some v -> v <> IInfer -> unchanged path (tys st) (tys s2) [] -> terr s2 = false ->
      reduce (tys s2) v = WOk u' -> Res path i (XCall [id]) (tys st) u' (tset i u' s2)).
    { intros s2 v2 I2 X2 E2 N2 U2 T2 R2. destruct (in_good I2 (PR RI) (ROOTS RI) E2 N2) as ((t' & y & S1 & H1 & D1) & _). pose proof (stored_has H1 S1 SB) as HB.
      pose proof (reduce_norm (has_norm HB) D1 R2) as D3. eapply finish; try eassumption; [exact (ha_call QB HB)| |intros c []].
      eapply den_keep; [|exact D3]. intros j z Rj Ej _. split; [exact (ref_root _ RI Rj)|exact Ej]. }
    assert (OLD : v <> IInfer -> WOk (v, st) = WOk (w, s1) -> Res path i (XCall [id]) (tys st) u' (tset i u' s1)).
    { intros NV Q. apply WOk_inj', pair_inj in Q. destruct Q as [<- <-]. refine (END st v HI (@ext_refl _) Ev1 NV _ HT Er). apply unchanged_refl. }
    destruct v as [|q| | |q]; try (apply OLD; [discriminate|exact Ew]). clear OLD.
    destruct (existsb (String.eqb id) path) eqn:EX.
    { exfalso. apply existsb_exists in EX. destruct EX as (p & Ip & Q). apply String.eqb_eq in Q. subst p. specialize (LOWER id Ip). lia. }
    destruct FR as [FR|[FA FR]]; [exfalso; destruct (FR rl RI) as (z & Ez & Nz); congruence|].
    apply wbind_ok in Ew. destruct Ew as ([v s2] & E2 & Ew). cbn [fst snd] in Ew.
    destruct (IH (id :: path) (rexpr rl) b st v s2 SB (ROOTS RI) ltac:(auto) ltac:(right; split; [exact FA|]; left; rewrite (ow_root HO RI); symmetry; exact RN)) as [[X N]|(X & I2 & X2 & V2 & (y & HY & DY) & U2)]; try assumption.
    { intros id' ND p [<-|Ip]; [exact (HRK IB ND)|]. pose proof (HRK IB ND). pose proof (LOWER p Ip). lia. }
    { left. assert (TE : terr s1 = true).
      { apply wbind_ok in Ew. destruct Ew as (z & _ & Ew). apply WOk_inj', pair_inj in Ew. destruct Ew as [_ <-]. exact X. }
      split; [exact TE|]. intros y Q. inversion Q; subst; [|congruence]. assert (t = b) by congruence. subst t. eapply N; eassumption. }
    assert (Q : reduce_rec_entry_point G (tys s2) id v = WOk v) by (inversion DY; subst; reflexivity). rewrite Q in Ew. cbn [wbind] in Ew. apply WOk_inj', pair_inj in Ew. destruct Ew as [<- <-].
    assert (SAME : tset (rexpr rl) v s2 = s2) by (destruct s2 as [T2 e2]; unfold tset; cbn [tys terr] in *; rewrite (update_same V2); reflexivity). rewrite SAME in *.
    refine (END s2 v I2 X2 V2 _ _ X Er); [intros ->; exact (den_infer DY)|]. destruct U2 as [_ U2]. split.
    + intros RF. exfalso. destruct (RF rl RI) as (z & Ez & Nz). congruence.
    + intros j _ (p & Ip & Lp). apply U2; [|exists p; split; [right; exact Ip|exact Lp]]. intros c [<-|[]] SP. rewrite (spos_own SP), (ow_root HO RI), RN in Lp. pose proof (LOWER p Ip). lia.
  - (* external *) apply WOk_inj', pair_inj in Ew. destruct Ew as [<- <-]. apply WOk_inj' in Er. subst u'. inversion S0; subst; same_exprs. eapply finish_leaf; eauto; constructor. assumption.
  - (* sequence *) apply wbind_ok in Ew. destruct Ew as ([us s2] & E2 & Ew). apply WOk_inj', pair_inj in Ew. destruct Ew as [<- <-]. cbn [snd] in *.
    inversion S0 as [| | | | |? js l0 E0 F2| | | | | | | | | |]; subst; same_exprs.
    destruct (LIST _ _ _ _ eq_refl F2 ltac:(apply Forall_forall; intros a Ia id ND; apply BP; econstructor; eassumption) E2) as [[X N]|(X & I2 & X2 & V2 & (ys & HY & DY) & U2)].
    { left. split; [exact X|]. intros y Q. inversion Q; subst. eapply N; eassumption. }
    cbn [reduce] in Er. eapply ENDL; try eassumption; [reflexivity|exact (ha_seq HY)|].
    destruct (nothing (seq_type ys)) eqn:NO.
    + pose proof (dens_any (R := fun _ => True) ltac:(auto) V2 DY) as DA. exact (den_void _ _ NO (tuple_den DA Er)).
    + refine (tuple_den _ Er). eapply (dens_of (path := seq_type ys) Ee); [auto|intros _; exact (NVI _ (ha_seq HY) NO)|exact NO|exact V2|exact DY].
  - (* choice *) apply wbind_ok in Ew. destruct Ew as ([us s2] & E2 & Ew). cbn [fst snd] in Ew. apply wbind_ok in Ew. destruct Ew as (r & ES & Ew). apply WOk_inj' in Ew.
    inversion S0 as [| | | | | |? js l0 E0 F2| | | | | | | | |]; subst; same_exprs.
    assert (KE : terr s2 = true -> terr s1 = true) by (intros X; destruct r; apply pair_inj in Ew; destruct Ew as [_ <-]; [exact X|reflexivity]).
    destruct (LIST _ _ _ _ eq_refl F2 ltac:(apply Forall_forall; intros a Ia id ND; apply BP; econstructor; eassumption) E2) as [[X N]|(X & I2 & X2 & V2 & (ys & HY & DY) & U2)].
    { left. split; [exact (KE X)|]. intros y Q. inversion Q; subst. eapply N; eassumption. }
    assert (DU : Forall2 (den (fun _ => True) (tys s2)) us ys).
    { cbn [visits] in V2, DY. clear - V2 DY. revert ys DY. induction V2 as [|j u0 ks us Ej F IHF]; intros ys D; cbn [combine] in D; inversion D as [|? y0 ? ys' D0 D']; subst; [constructor|]. cbn [fst snd] in D0.
      constructor; [eapply den_keep; [|exact D0]; auto|exact (IHF _ D')]. }
    pose proof (sum_den DU ES) as SD. destruct r as [v|].
    2:{ apply pair_inj in Ew. destruct Ew as [_ <-]. left. split; [reflexivity|]. intros y Q. inversion Q; subst. match goal with A : have l0 ?zs, B : agree ?zs y |- _ => assert (zs = ys) by exact (proj2 (has_det_both rs (facts_of E)) _ _ A _ HY); subst zs; exact (SD _ B) end. }
    apply pair_inj in Ew. destruct Ew as [<- <-]. destruct SD as (y & AG & DV). pose proof (ha_alt HY AG) as HA.
    eapply ENDL; try eassumption; [reflexivity|]. refine (reduce_norm (has_norm HA) _ Er).
    destruct (nothing y) eqn:NO; [exact (den_void _ _ NO DV)|].
    assert (IV : In v us).
    { pose proof (reduce_sum_spec ES) as (_ & CT). destruct CT as [z lz EQ _|z l1 l2 _ EQ _ _ _| |q EQ _]; [| |inversion DV; subst; discriminate NO|exfalso; inversion DV];
       apply (in_non_rec (t := z)); try (inversion DV; reflexivity); rewrite EQ; [left; reflexivity|apply in_or_app; right; left; reflexivity]. }
    assert (X0 : exists c z, In c js /\ den (ref_ok c) (tys s2) v z).
    { cbn [visits] in V2, DY. clear - IV V2 DY. revert ys DY IV. induction V2 as [|j u0 ks us Ej F IHF]; intros ys D IV; [destruct IV|]. cbn [combine] in D; inversion D as [|? y0 ? ys' D0 D']; subst. cbn [fst snd] in D0.
      destruct IV as [<-|IV]; [exists j, y0; cbn; auto|]. destruct (IHF _ D' IV) as (c & z & Ic & Dz). exists c, z. cbn. auto. }
    destruct X0 as (c & z & Ic & Dz). assert (z = y) as -> by (exact (den_fun Dz DV)).
    exact (UP c v y y HA NO Ic Dz).
  - (* star *) apply wbind_ok in Ew. destruct Ew as ([v s2] & E2 & Ew). apply WOk_inj', pair_inj in Ew. destruct Ew as [<- <-]. cbn [snd] in *.
    inversion S0 as [| | | | | | |? j t' E0 S1| | | | | | | |]; subst; same_exprs. eapply (REP j t' v TList YList s2); try eassumption; auto.
    + intros id ND. apply BP. constructor. exact ND.
    + intros y Hy. exact (ha_star Hy).
    + intros y Hy. inversion Hy; subst; eauto.
  - apply wbind_ok in Ew. destruct Ew as ([v s2] & E2 & Ew). apply WOk_inj', pair_inj in Ew. destruct Ew as [<- <-]. cbn [snd] in *.
    inversion S0 as [| | | | | | | |? j t' E0 S1| | | | | | |]; subst; same_exprs. eapply (REP j t' v TList YList s2); try eassumption; auto.
    + intros id ND. apply BP. constructor. exact ND.
    + intros y Hy. exact (ha_plus Hy).
    + intros y Hy. inversion Hy; subst; eauto.
  - apply wbind_ok in Ew. destruct Ew as ([v s2] & E2 & Ew). apply WOk_inj', pair_inj in Ew. destruct Ew as [<- <-]. cbn [snd] in *.
    inversion S0 as [| | | | | | | | |? j t' E0 S1| | | | | |]; subst; same_exprs. eapply (REP j t' v TOptional YOpt s2); try eassumption; auto.
    + intros id ND. apply BP. constructor. exact ND.
    + intros y Hy. exact (ha_opt Hy).
    + intros y Hy. inversion Hy; subst; eauto.
  - apply WOk_inj', pair_inj in Ew. destruct Ew as [<- <-]. apply WOk_inj' in Er. subst u'. inversion S0; subst; same_exprs. eapply finish_leaf; eauto; constructor.
  - apply WOk_inj', pair_inj in Ew. destruct Ew as [<- <-]. apply WOk_inj' in Er. subst u'. inversion S0; subst; same_exprs. eapply finish_leaf; eauto; constructor.
  - (* action *) apply WOk_inj', pair_inj in Ew. destruct Ew as [<- <-]. inversion S0 as [| | | | | | | | | | | |? j t' b' p E0 S1| | |]; subst; same_exprs.
    assert (D : forall R T, den R T u' (act_type (facts_of E) b' p)).
    { clear - Er. intros R T. unfold action_type, act_type in *. cbn [facts_of returns]. destruct p as [|f [|]]; try (apply WOk_inj' in Er; subst u'; constructor). destruct (ret_of E f) as [[]|]; apply WOk_inj' in Er; subst u'; constructor. }
    eapply finish_leaf; eauto; constructor.
  - (* ascription *) apply WOk_inj', pair_inj in Ew. destruct Ew as [<- <-]. inversion S0 as [| | | | | | | | | | | | |? j t' ty' E0 S1| |]; subst; same_exprs.
    assert (D : forall R T, den R T u' (asc_type ty')).
    { intros R T. destruct (tg_asc HG Ee) as [-> |[-> |(s & ->)]]; cbn in Er; apply WOk_inj' in Er; subst u'; constructor. }
    eapply finish_leaf; eauto; constructor.
  - (* span *) apply wbind_ok in Ew. destruct Ew as ([v s2] & E2 & Ew). apply WOk_inj', pair_inj in Ew. destruct Ew as [<- <-]. cbn [snd] in *.
    inversion S0 as [| | | | | | | | | | | | | |? j t' E0 S1|]; subst; same_exprs.
    destruct (ONE j t' v s2 eq_refl S1 ltac:(intros id ND; apply BP; constructor; exact ND) E2) as [[X N]|(X & I2 & X2 & V2 & (y & HY & DY) & U2)].
    { left. split; [exact X|]. intros z Q. inversion Q; subst. eapply N; eassumption. }
    pose proof (ha_span HY) as HS. eapply (END1 j t' v); try eassumption; [reflexivity|exists y; exact DY|]. cbn [reduce] in Er.
    pose proof (in_span I2) as ES. rewrite (in_len I2) in Er. refine (tuple_den _ Er).
    assert (NO : nothing (seq_type [YRust (span_ty E); y]) = false).
    { clear. unfold seq_type. cbn [flat_map spread app forallb unseen filter nothing negb]. destruct (filter _ _) as [|z l]; reflexivity. }
    econstructor; [right; right; reflexivity|exact ES|constructor|]. econstructor; [left; eapply kf_step; [exact Ee|left; reflexivity|exact (NVI _ HS NO)|constructor]|exact V2| |constructor].
    exact (UP j v _ y HS NO (or_introl eq_refl) DY).
  - (* range *) apply wbind_ok in Ew. destruct Ew as ([v s2] & E2 & Ew). apply WOk_inj', pair_inj in Ew. destruct Ew as [<- <-]. cbn [snd] in *.
    inversion S0 as [| | | | | | | | | | | | | | |? n j t' E0 E1 S1]; subst; same_exprs.
    assert (SN : stored n (XAsc t' (IRegular TUnit))) by (econstructor; eassumption).
    destruct (ONE n _ v s2 eq_refl SN ltac:(intros id ND; inversion ND) E2) as [[X N]|(X & I2 & X2 & V2 & (y & HY & DY) & U2)].
    { exfalso. apply (N YUnit). exact (ha_asc _ _ _ (IRegular TUnit)). }
    apply WOk_inj' in Er. subst u'. eapply (END1 n _ v); try eassumption; [reflexivity|exists y; exact DY|constructor|constructor].
Qed.
End Surface.
