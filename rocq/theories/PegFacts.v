(** Facts about the specification: determinism, the link between Ford's semantics and the one with
    values and events, and the agreement of the two modes. *)
From Verif Require Import Base Grammar PegSpec CompileShape.
Set Implicit Arguments. Unset Strict Implicit.

Definition is_act (e : event) : bool := match e with EvAct _ _ => true | EvErr _ _ => false end.
Definition only_errs (evs : list event) : list event := filter (fun e => negb (is_act e)) evs.
Definition forget (r : option (text * list value)) : option text := option_map fst r.

(** What is assumed of external rules: both functions are deterministic, the recognizer builds
    nothing and calls no action, and the parser accepts the same text with the same errors. *)
Record ext_sane (X : extern) : Prop := {
  xs_det : forall m p s r1 e1 r2 e2, X m p s r1 e1 -> X m p s r2 e2 -> r1 = r2 /\ e1 = e2;
  xs_rec : forall p s r evs, X Rec p s r evs -> only_errs evs = evs /\ (forall q, r = Some q -> snd q = []);
  xs_par : forall p s r evs, X Par p s r evs ->
     X Rec p s (option_map (fun q => (fst q, [])) r) (only_errs evs);
  xs_both : forall p s r evs, X Rec p s r evs -> exists r' evs', X Par p s r' evs'
}.

(** The language of the external recognizers. *)
Definition ford_ext (X : extern) (p : list string) (s : text) (r : option text) : Prop :=
  exists r' evs, X Rec p s r' evs /\ forget r' = r.

Lemma only_errs_app a b : only_errs (a ++ b) = only_errs a ++ only_errs b.
Proof. apply filter_app. Qed.
Lemma only_errs_idem a : only_errs (only_errs a) = only_errs a.
Proof. unfold only_errs. induction a as [|e a IH]; simpl; [reflexivity|]. destruct (negb (is_act e)) eqn:E; simpl; [rewrite E|]; congruence. Qed.

Section Facts.
Variable G : grammar.
Variable X : extern.
Variable off : text -> nat.
Hypothesis HX : ext_sane X.

Notation ep := (ep G X off).
Notation matches := (matches G (ford_ext X)).

Lemma app_inv (lit a b : text) : lit ++ a = lit ++ b -> a = b.
Proof. apply app_inv_head. Qed.

(** ---------------- determinism ---------------- *)
Ltac same_expr := match goal with
  | H1 : expr_of G ?i = Some _, H2 : expr_of G ?i = Some _ |- _ => rewrite H1 in H2; injection H2; intros; subst; clear H2
  end.
Ltac same_rule := match goal with
  | H1 : find_rule G ?i = Some _, H2 : find_rule G ?i = Some _ |- _ => rewrite H1 in H2; injection H2; intros; subst; clear H2
  end.

Lemma matches_det it s r1 : matches it s r1 -> forall r2, matches it s r2 -> r1 = r2.
Proof.
  induction 1; intros r2 H'; inversion H'; subst; try same_expr; try same_rule; try congruence; try contradiction;
    repeat match goal with
    | IH : forall r, matches ?it ?s r -> _ = r, H : matches ?it ?s _ |- _ => apply IH in H; try (injection H; intros; subst); try discriminate; try subst
    end; auto; try congruence.
  - match goal with H : ?l ++ _ = ?l ++ _ |- _ => apply app_inv in H; congruence end.
  - match goal with H : forall rest, _ <> _ ++ rest |- _ => exfalso; eapply H; reflexivity end.
  - match goal with H : forall rest, _ <> _ ++ rest |- _ => exfalso; eapply H; reflexivity end.
  - match goal with H1 : ford_ext X _ _ _, H2 : ford_ext X _ _ _ |- _ =>
      destruct H1 as (a & b & H1 & <-), H2 as (c & d & H2 & <-); destruct (xs_det HX H1 H2) as [-> _]; reflexivity end.
Qed.

Lemma ep_det m it s r1 e1 : ep m it s r1 e1 -> forall r2 e2, ep m it s r2 e2 -> r1 = r2 /\ e1 = e2.
Proof.
  induction 1; intros r2 e2 H'; inversion H'; subst; try same_expr; try same_rule; try contradiction;
    cbn [active] in *; try congruence;
    repeat match goal with
    | IH : forall r e, ep ?m ?it ?s r e -> _ = r /\ _ = e, H : ep ?m ?it ?s _ _ |- _ =>
      let A := fresh in let B := fresh in destruct (IH _ _ H) as [A B]; clear H; try discriminate A;
      try (injection A; clear A; intros); subst
    end; auto; try (split; congruence).
  all: try (match goal with H1 : X _ _ _ _ _, H2 : X _ _ _ _ _ |- _ => exact (xs_det HX H1 H2) end).
  match goal with H : ?l ++ _ = ?l ++ _ |- _ => apply app_inv in H; subst; auto end.
Qed.

(** ---------------- Ford's semantics is the erasure ---------------- *)
Lemma ep_matches m it s r evs : ep m it s r evs -> matches it s (forget r).
Proof.
  induction 1; cbn [forget option_map fst] in *; try (econstructor; eassumption); try assumption.
  - eapply m_ext; [eassumption|]. destruct m.
    + exists r, evs. auto.
    + apply (xs_par HX) in H1. eexists. eexists. split; [exact H1|]. destruct r; reflexivity.
Qed.

Lemma ep_matches_ok m it s s1 vs evs : ep m it s (Some (s1, vs)) evs -> matches it s (Some s1).
Proof. apply ep_matches. Qed.
Lemma ep_matches_no m it s evs : ep m it s None evs -> matches it s None.
Proof. apply ep_matches. Qed.

Lemma ep_star_some m e s r evs : ep m (IStar e) s r evs -> exists q, r = Some q.
Proof. intros H. remember (IStar e) as it eqn:E. destruct H; try discriminate E; eauto. Qed.

Lemma matches_ep it s r : matches it s r -> exists r' evs, ep Rec it s r' evs /\ forget r' = r.
Proof.
  induction 1;
    repeat match goal with
    | H : exists r' evs, ep Rec _ _ r' evs /\ forget r' = ?r |- _ =>
      let r' := fresh "r" in let evs := fresh "evs" in let E := fresh "E" in let F := fresh "F" in
      destruct H as (r' & evs & E & F);
      match type of F with
      | forget _ = Some _ => destruct r' as [[? ?]|]; [|discriminate F]; cbn [forget option_map fst] in F; injection F; clear F; intros; subst
      | forget _ = None => destruct r' as [[? ?]|]; [discriminate F|]; clear F
      | _ => idtac
      end
    end.
  all: try (do 2 eexists; split; [econstructor; try eassumption; try exact I|]; cbn [forget option_map fst] in *; first [reflexivity|assumption]).
  - destruct H0 as (r' & evs & E & F). exists r', evs. split; [eapply ep_ext; [exact I|eassumption|exact E]|exact F].
  - match goal with E : ep Rec (IStar _) _ ?q _ |- _ => destruct (ep_star_some E) as [[s1 vs] ->] end.
    do 2 eexists. split; [eapply ep_star; [exact I|eassumption|eassumption]|]. assumption.
  - match goal with E : ep Rec (IStar _) _ ?q _ |- _ => destruct (ep_star_some E) as [[s2 vs2] ->] end.
    do 2 eexists. split; [eapply ep_plus_ok; [exact I|eassumption|eassumption|eassumption]|]. reflexivity.
  - match goal with E : ep Rec (ISeq _) _ ?q _ |- _ => destruct q as [[s2 vs2]|] end.
    + do 2 eexists. split; [eapply ep_seq_cons_ok; eassumption|reflexivity].
    + do 2 eexists. split; [eapply ep_seq_cons_fail; eassumption|reflexivity].
  - match goal with E : ep Rec (IStar _) _ ?q _ |- _ => destruct (ep_star_some E) as [[s2 vs2] ->] end.
    do 2 eexists. split; [eapply ep_star_more; eassumption|]. reflexivity.
Qed.

(** ---------------- recognizers are silent ---------------- *)
Definition unit_vals (it : item) (vs : list value) : Prop :=
  match it with IStar _ => Forall (eq VUnit) vs | _ => vs = [] end.
Lemma rec_silent it s r evs : ep Rec it s r evs ->
  only_errs evs = evs /\ (forall s1 vs, r = Some (s1, vs) -> unit_vals it vs).
Proof.
  intros H. remember Rec as m eqn:Em. induction H; try discriminate Em; subst;
    repeat match goal with IH : Rec = Rec -> _ |- _ => specialize (IH eq_refl); destruct IH end;
    rewrite ?only_errs_app; (split; [try congruence; try reflexivity|]);
    try (intros ? ? K; injection K; intros; subst; reflexivity);
    try (intros ? ? K; discriminate K); try assumption.
  - apply (xs_rec HX) in H1. apply H1.
  - intros s1 vs ->. apply (xs_rec HX) in H1. exact (proj2 H1 _ eq_refl).
  - intros s1' vs K. injection K; intros; subst. 
    repeat match goal with H : forall s vs, Some _ = Some (s, vs) -> _ |- _ => specialize (H _ _ eq_refl) end.
    cbn [unit_vals] in *. subst. reflexivity.
  - intros s1 vs K. injection K; intros; subst. constructor.
  - intros s1' vs K. injection K; intros; subst.
    repeat match goal with H : forall s vs, Some _ = Some (s, vs) -> _ |- _ => specialize (H _ _ eq_refl) end.
    cbn [unit_vals] in *. subst. constructor; [reflexivity|assumption].
Qed.

(** ---------------- the two modes agree ---------------- *)
Lemma par_rec m it s r evs : ep m it s r evs -> exists r', ep Rec it s r' (only_errs evs) /\ forget r' = forget r.
Proof.
  induction 1;
    repeat match goal with
    | H : exists r', ep Rec _ _ r' _ /\ forget r' = ?r |- _ =>
      let r' := fresh "r" in let E := fresh "E" in let F := fresh "F" in
      destruct H as (r' & E & F);
      match type of F with
      | forget _ = forget (Some _) => destruct r' as [[? ?]|]; [|discriminate F]; cbn [forget option_map fst] in F; injection F; clear F; intros; subst
      | forget _ = forget None => destruct r' as [[? ?]|]; [discriminate F|]; clear F
      | _ => idtac
      end
    end; rewrite ?only_errs_app in *.
  all: try (eexists; split; [econstructor; try eassumption; try exact I|]; cbn [forget option_map fst] in *; first [reflexivity|assumption]).
  - eexists. split; eassumption.
  - destruct m.
    + pose proof (xs_rec HX H1) as [K _]. exists r. rewrite K. split; [eapply ep_ext; [exact I|eassumption|exact H1]|reflexivity].
    + apply (xs_par HX) in H1. eexists. split; [eapply ep_ext; [exact I|eassumption|exact H1]|]. destruct r; reflexivity.
  - assert (Z : only_errs (act_events f (is_unit G e) vs) = []) by (unfold act_events; destruct (unit_variant _ _); reflexivity).
    rewrite Z, app_nil_r. eexists. split; [eapply ep_act_rec; eassumption|reflexivity].
Qed.

Lemma rec_par it s r evs : coherent G -> ep Rec it s r evs ->
  exists r' evs', ep Par it s r' evs' /\ forget r' = forget r.
Proof.
  intros HC H. remember Rec as m eqn:Em. induction H; try discriminate Em; subst;
    repeat match goal with IH : Rec = Rec -> _ |- _ => specialize (IH eq_refl) end;
    repeat match goal with
    | H : exists r' evs', ep Par _ _ r' evs' /\ forget r' = ?r |- _ =>
      let r' := fresh "r" in let evs := fresh "evs" in let E := fresh "E" in let F := fresh "F" in
      destruct H as (r' & evs & E & F);
      match type of F with
      | forget _ = forget (Some _) => destruct r' as [[? ?]|]; [|discriminate F]; cbn [forget option_map fst] in F; injection F; clear F; intros; subst
      | forget _ = forget None => destruct r' as [[? ?]|]; [discriminate F|]; clear F
      | _ => idtac
      end
    end;
    try match goal with E : expr_of G ?i = Some ?e |- exists r' evs', ep Par (IE ?i) ?s r' evs' /\ _ =>
      let U := fresh "U" in destruct (is_unit G i) eqn:U;
      [do 2 eexists; split; [apply ep_unit; [exact U|econstructor; eassumption]|reflexivity]
      |pose proof (HC i e E U) as Co; try (exfalso; exact Co)] end;
    try (do 2 eexists; split; [econstructor; try eassumption; try exact I|]; cbn [forget option_map fst] in *; first [reflexivity|assumption]).
  - destruct (xs_both HX H1) as (r' & evs' & K). exists r', evs'. split; [eapply ep_ext; eassumption|].
    apply (xs_par HX) in K. destruct (xs_det HX H1 K) as [-> _]. destruct r'; reflexivity.
  - match goal with E : ep Par _ _ ?q _ |- _ => destruct q as [[s2 vs2]|] end.
    + do 2 eexists. split; [eapply ep_act_ok; eassumption|]. assumption.
    + do 2 eexists. split; [eapply ep_act_fail; eassumption|]. assumption.
  - match goal with E : ep Par _ _ ?q _ |- _ => destruct q as [[s2 vs2]|] end.
    + do 2 eexists. split; [eapply ep_span_ok; eassumption|]. assumption.
    + do 2 eexists. split; [eapply ep_span_fail; eassumption|]. assumption.
  - match goal with E : ep Par _ _ ?q _ |- _ => destruct q as [[s2 vs2]|] end.
    + do 2 eexists. split; [eapply ep_range_ok; eassumption|]. assumption.
    + do 2 eexists. split; [eapply ep_range_fail; eassumption|]. assumption.
Qed.

(** Both modes accept the same text and meet the same terminal failures. *)
Theorem modes_agree it s rR eR rP eP : ep Rec it s rR eR -> ep Par it s rP eP ->
  forget rR = forget rP /\ eR = only_errs eP.
Proof.
  intros H1 H2. destruct (par_rec H2) as (r' & K & F). destruct (ep_det H1 K) as [-> ->]. auto.
Qed.
End Facts.
