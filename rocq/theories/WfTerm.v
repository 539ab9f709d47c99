(** The well-formedness analysis terminates and does not panic. *)
From Verif Require Import Base Grammar PegSpec WellFormed WfFacts WfSound.
Set Implicit Arguments. Unset Strict Implicit.

(** Every rule call of the grammar names a rule (established by resolve_non_terminal.rs). *)
Definition resolved (G : grammar) : Prop := forall i id, in_rules G i -> expr_of G i = Some (ENT id) -> exists rl, find_rule G id = Some rl.

Record analysable (G : grammar) : Prop := {
  an_children : forall i e, expr_of G i = Some e -> Forall (fun j => j < i) (children e);
  an_rules : forall rl, In rl (rules G) -> rexpr rl < length (exprs G);
  an_choice : forall i, expr_of G i <> Some (EAlt []);
  an_resolved : resolved G
}.

Section Term.
Variable G : grammar.
Hypothesis HG : analysable G.

(** ---------------- the traversal ---------------- *)
Definition dom_ok (W : string -> option wfa) : Prop := forall id rl, find_rule G id = Some rl -> W id <> None.
Definition path_ok (p : list (string * bool)) : Prop := NoDup (names p) /\ incl (names p) (map rname (rules G)).

Definition R := length (rules G).
Definition E := length (exprs G).
Definition enough (fuel i : nat) (p : list (string * bool)) : Prop := (R - length p) * (E + 1) + i < fuel.

Lemma find_rule_name id rl : find_rule G id = Some rl -> In id (map rname (rules G)).
Proof. intros F. destruct (find_rule_some F) as [I <-]. apply in_map, I. Qed.

Lemma path_lt id rl p : path_ok p -> ~ In id (names p) -> find_rule G id = Some rl -> length p < R.
Proof.
  intros [N I] NI F. assert (length (id :: names p) <= length (map rname (rules G))) as L.
  { apply NoDup_incl_length; [constructor; assumption|]. intros x [<-|Hx]; [exact (find_rule_name F)|exact (I x Hx)]. }
  cbn in L. unfold names in L. rewrite !map_length in L. unfold R. lia.
Qed.
Lemma path_ok_push id rl c p : path_ok p -> ~ In id (names p) -> find_rule G id = Some rl -> path_ok ((id, c) :: p).
Proof.
  intros [N I] NI F. split; cbn; [constructor; assumption|]. intros x [<-|Hx]; [exact (find_rule_name F)|exact (I x Hx)].
Qed.

Lemma in_rules_lt i : in_rules G i -> i < E.
Proof.
  intros (id & rl & F & S). destruct (find_rule_some F) as [I _]. apply (an_rules HG) in I. unfold E.
  induction S as [|i j k e Ee Hj S IH]; [exact I|]. apply IH. pose proof (an_children HG Ee) as Fo. rewrite Forall_forall in Fo.
  specialize (Fo j Hj). lia.
Qed.
Lemma child_in i e j : in_rules G i -> expr_of G i = Some e -> In j (children e) -> in_rules G j /\ j < i.
Proof.
  intros Hi Ee Hj. split; [eapply in_rules_child; eassumption|]. pose proof (an_children HG Ee) as Fo. rewrite Forall_forall in Fo. exact (Fo j Hj).
Qed.

Definition pre (st : wst) : Prop := sinv st /\ dom_ok (wtab st) /\ path_ok (wpath st).
Definition runs_ok (fuel i : nat) : Prop := forall st, pre st -> enough fuel i (wpath st) -> exists a st', visit_expr G fuel i st = WOk (a, st').

Lemma pre_frame st st' : pre st -> frame st st' -> sinv st' -> pre st'.
Proof.
  intros (_ & D & P) (F1 & F2 & F3) I. split; [exact I|]. split; [|rewrite F1; exact P].
  intros id rl F. rewrite F3. eapply D; eassumption.
Qed.
Lemma pre_expr fuel i st a st' : pre st -> visit_expr G fuel i st = WOk (a, st') -> pre st' /\ wpath st' = wpath st.
Proof.
  intros P H. pose proof (frame_expr H) as F. split; [|exact (proj1 F)]. eapply pre_frame; [exact P|exact F|].
  destruct (quiet_expr (an_choice HG) H) as [[_ Q] _]. apply Q, P.
Qed.
Lemma pre_cons st b : pre st -> pre (with_cons st b).
Proof. intros (I & D & P). split; [exact (sinv_cons b I)|]. split; assumption. Qed.
Lemma pre_report d i st : pre st -> pre (report d i st).
Proof.
  intros P. eapply pre_frame; [exact P|apply frame_report|apply sinv_report, P].
Qed.

Lemma rule_total fuel id rl st : find_rule G id = Some rl -> pre st ->
  (is_rec id st = false -> (R - length (wpath st) - 1) * (E + 1) + E <= fuel) ->
  (forall i, in_rules G i -> runs_ok fuel i) ->
  exists a st', visit_rule G (visit_expr G fuel) id st = WOk (a, st').
Proof.
  intros F P L IH. unfold visit_rule.
  assert (Done : forall st', pre st' -> exists a st2, (match wtab st' id with Some a => WOk (a, st') | None => WPanic end) = WOk (a, st2)).
  { intros st' (_ & D & _). specialize (D _ _ F). destruct (wtab st' id); [eauto|congruence]. }
  destruct (is_rec id st) eqn:Rc.
  - destruct (negb (consume_input_since id st) && negb (wcons st)).
    + unfold error_left_recursion. rewrite F. cbn [wbind]. apply Done. apply pre_report.
      destruct P as ([_ T] & D & Pa). split; [split; [discriminate|exact T]|]. split; assumption.
    + cbn [wbind]. apply Done, P.
  - rewrite F. specialize (L eq_refl).
    assert (NI : ~ In id (names (wpath st))).
    { intros Hin. unfold names in Hin. apply in_map_iff in Hin. destruct Hin as (q & Eq & Hin).
      assert (K : is_rec id st = true) by (apply existsb_exists; exists q; split; [exact Hin|apply String.eqb_eq, Eq]). congruence. }
    assert (PP : pre (push_rule id st)).
    { destruct P as ([C T] & D & Pa). split; [split; assumption|]. split; [exact D|]. eapply path_ok_push; eassumption. }
    assert (Lt : length (wpath st) < R) by (eapply path_lt; [apply P|exact NI|exact F]).
    destruct (IH (rexpr rl) (in_rules_rule F) (push_rule id st) PP) as (b & st2 & H).
    { unfold enough. cbn [push_rule with_cons with_path wpath length]. pose proof (in_rules_lt (in_rules_rule F)).
      replace (R - Datatypes.S (length (wpath st))) with (R - length (wpath st) - 1) by lia. lia. }
    rewrite H. cbn [wbind fst snd]. destruct (pre_expr PP H) as [P2 E2].
    unfold pop_rule. rewrite E2. cbn [push_rule with_cons with_path wpath wbind].
    unfold fixpoint_update. cbn [with_cons with_path wtab].
    destruct P2 as ([C2 T2] & D2 & _). pose proof (D2 _ _ F) as D2'. destruct (wtab st2 id) as [b0|] eqn:T; [|congruence]. cbn [wbind].
    destruct (wfa_eqb b b0); cbn [with_fix with_tab with_cons with_path wtab]; rewrite ?T, ?String.eqb_refl; eauto.
Qed.

Lemma visit_total fuel : forall i, in_rules G i -> runs_ok fuel i.
Proof.
  induction fuel as [|k IH]; intros i Hi st P En; [destruct (Nat.nlt_0_r _ En)|].
  pose proof (in_rules_lt Hi) as Li. destruct (expr_of G i) as [e|] eqn:Ei.
  2: { unfold expr_of in Ei. apply nth_error_None in Ei. unfold E in Li. lia. }
  assert (Ch : forall j st', In j (children e) -> pre st' -> wpath st' = wpath st -> exists a st2, visit_expr G k j st' = WOk (a, st2) /\ pre st2 /\ wpath st2 = wpath st).
  { intros j st' Hj P' Ep. destruct (child_in Hi Ei Hj) as [Hj' Lj]. destruct (IH j Hj' st' P') as (a & st2 & H).
    - unfold enough in *. rewrite Ep. lia.
    - destruct (pre_expr P' H) as [P2 E2]. exists a, st2. split; [exact H|]. split; [exact P2|congruence]. }
  assert (WT : exists a st', walk G (visit_expr G k) i st = WOk (a, st')).
  { unfold walk. rewrite Ei. destruct e as [[|c lit]| |cls|id|p|l|l|e|e|e|e|e|e b f|e t|e|e]; try (do 2 eexists; reflexivity).
    - destruct (an_resolved HG Hi Ei) as [rl F]. eapply rule_total; [exact F|exact P| |exact IH].
      intros Rc. unfold enough in En. 
      assert (Lt : length (wpath st) < R).
      { eapply path_lt; [apply P| |exact F]. intros Hin. unfold names in Hin. apply in_map_iff in Hin. destruct Hin as (q & Eq & Hin).
        assert (K : is_rec id st = true) by (apply existsb_exists; exists q; split; [exact Hin|apply String.eqb_eq, Eq]). congruence. }
      replace (R - length (wpath st)) with (Datatypes.S (R - length (wpath st) - 1)) in En by lia. cbn [Nat.mul] in En. lia.
    - assert (S : forall l' a st', incl l' l -> pre st' -> wpath st' = wpath st -> exists r st2, visit_sequence_from (visit_expr G k) l' a st' = WOk (r, st2)).
      { induction l' as [|j l' IHl]; intros a st' In' P' Ep; cbn [visit_sequence_from]; [eauto|].
        destruct (Ch j st' (In' j (or_introl eq_refl)) P' Ep) as (c & st2 & H & P2 & E2). rewrite H. cbn [wbind fst snd].
        apply IHl; [intros x Hx; apply In'; right; exact Hx| |]; destruct (always_consume c); try apply pre_cons; assumption. }
      destruct (S l (mkWfa false true false true) st (incl_refl l) P eq_refl) as (r & st2 & H). rewrite H. cbn [wbind]. eauto.
    - assert (S : forall l' a st', incl l' l -> pre st' -> wpath st' = wpath st -> exists r st2, visit_choice_from (visit_expr G k) i l' a st' = WOk (r, st2)).
      { induction l' as [|j l' IHl]; intros a st' In' P' Ep; cbn [visit_choice_from]; [eauto|].
        destruct (Ch j st' (In' j (or_introl eq_refl)) P' Ep) as (c & st2 & H & P2 & E2). rewrite H. cbn [wbind fst snd].
        destruct l' as [|j' l']; [eauto|]. destruct (negb (can_fail c)); [eauto|].
        apply IHl; [intros x Hx; apply In'; right; exact Hx|apply pre_cons, P2|exact E2]. }
      apply S; [apply incl_refl|exact P|reflexivity].
    - destruct (Ch e st (or_introl eq_refl) P eq_refl) as (a & st2 & H & _). unfold visit_repeat. rewrite H. cbn [wbind fst snd].
      destruct (can_succeed a && negb (always_consume a)); cbn [wbind]; eauto.
    - destruct (Ch e st (or_introl eq_refl) P eq_refl) as (a & st2 & H & _). unfold visit_repeat. rewrite H. cbn [wbind fst snd].
      destruct (can_succeed a && negb (always_consume a)); eauto.
    - destruct (Ch e st (or_introl eq_refl) P eq_refl) as (a & st2 & H & _). rewrite H. cbn [wbind]. eauto.
    - destruct (Ch e st (or_introl eq_refl) P eq_refl) as (a & st2 & H & _). unfold visit_predicate. rewrite H. cbn [wbind]. eauto.
    - destruct (Ch e st (or_introl eq_refl) P eq_refl) as (a & st2 & H & _). unfold visit_predicate. rewrite H. cbn [wbind]. eauto.
    - destruct (Ch e st (or_introl eq_refl) P eq_refl) as (a & st2 & H & _). eauto.
    - destruct (Ch e st (or_introl eq_refl) P eq_refl) as (a & st2 & H & _). eauto.
    - destruct (Ch e st (or_introl eq_refl) P eq_refl) as (a & st2 & H & _). eauto.
    - destruct (Ch e st (or_introl eq_refl) P eq_refl) as (a & st2 & H & _). eauto. }
  destruct WT as (a & st' & H). cbn [visit_expr]. rewrite H. cbn [wbind fst snd].
  destruct (quiet_walk (quiet_expr (an_choice HG) (fuel := k)) (@an_choice _ HG i) H) as [_ S].
  destruct (S (proj1 P)) as (A1 & A2 & _).
  assert (negb (can_fail a || can_succeed a) = false) as -> by (destruct A1 as [-> | ->]; [|rewrite orb_true_r]; reflexivity).
  assert (negb (negb (always_consume a) || negb (never_consume a)) = false) as ->.
  { destruct (always_consume a); [rewrite A2 by reflexivity|]; reflexivity. }
  destruct (can_fail a && negb (can_succeed a)); [eauto|]. destruct (can_succeed a && negb (can_fail a) && never_consume a); eauto.
Qed.

(** ---------------- the fixpoint ---------------- *)
(** The order in which attributes evolve. *)
Definition wle (a b : wfa) : Prop :=
  (can_fail b = true -> can_fail a = true) /\ (always_consume b = true -> always_consume a = true) /\
  (never_consume a = true -> never_consume b = true).
Lemma wle_refl a : wle a a. Proof. repeat split; auto. Qed.
Lemma wle_trans a b c : wle a b -> wle b c -> wle a c. Proof. unfold wle. intuition. Qed.
Definition tle (W W' : string -> option wfa) : Prop := forall id a, W id = Some a -> exists b, W' id = Some b /\ wle a b.
Lemma tle_refl W : tle W W. Proof. intros id a H. exists a. split; [exact H|apply wle_refl]. Qed.
Lemma tle_trans A B C : tle A B -> tle B C -> tle A C.
Proof. intros H K id a Ea. destruct (H id a Ea) as (b & Eb & L). destruct (K id b Eb) as (c & Ec & L'). exists c. split; [exact Ec|eapply wle_trans; eassumption]. Qed.

Ltac same_expr := repeat match goal with
  | H1 : expr_of G ?i = Some _, H2 : expr_of G ?i = Some _ |- _ => rewrite H1 in H2; first [discriminate H2|injection H2; intros; subst; clear H2]
  end.
Lemma wle_seq a b a' b' s1 s2 : wle a a' -> wle b b' ->
  wle (mkWfa (can_fail a || can_fail b) s1 (always_consume a || always_consume b) (never_consume a && never_consume b))
      (mkWfa (can_fail a' || can_fail b') s2 (always_consume a' || always_consume b') (never_consume a' && never_consume b')).
Proof.
  intros (A1 & A2 & A3) (B1 & B2 & B3). repeat split; cbn; intros K.
  - apply orb_true_iff in K. apply orb_true_iff. tauto.
  - apply orb_true_iff in K. apply orb_true_iff. tauto.
  - apply andb_true_iff in K. apply andb_true_iff. tauto.
Qed.
Lemma wle_alt a b a' b' s1 s2 : wle a a' -> wle b b' ->
  wle (mkWfa (can_fail a && can_fail b) s1 (always_consume a && always_consume b) (never_consume a && never_consume b))
      (mkWfa (can_fail a' && can_fail b') s2 (always_consume a' && always_consume b') (never_consume a' && never_consume b')).
Proof.
  intros (A1 & A2 & A3) (B1 & B2 & B3). repeat split; cbn; intros K; apply andb_true_iff in K; apply andb_true_iff; tauto.
Qed.
Lemma wle_pred a a' s1 s2 : wle a a' -> wle (mkWfa (can_fail a) s1 false true) (mkWfa (can_fail a') s2 false true).
Proof. intros (A1 & A2 & A3). repeat split; cbn; auto. Qed.
Lemma wle_star a a' : wle a a' -> wle (always_succeed (never_consume a)) (always_succeed (never_consume a')).
Proof. intros (A1 & A2 & A3). repeat split; cbn; auto. Qed.

Lemma judged_mono W W' it a : tle W W' -> judged G W it a -> forall b, judged G W' it b -> wle a b.
Proof.
  intros T. induction 1; intros b' H'; inversion H'; subst; same_expr; try apply wle_refl; auto using wle_seq, wle_alt, wle_pred, wle_star.
  match goal with H : W _ = Some _ |- _ => destruct (T _ _ H) as (c & Ec & L) end. congruence.
Qed.
Lemma judged_total W : dom_ok W -> forall n i, i < n -> in_rules G i -> exists a, judged G W (IE i) a.
Proof.
  intros D. induction n as [|n IH]; intros i Ln Hi; [lia|].
  destruct (expr_of G i) as [e|] eqn:Ei.
  2: { unfold expr_of in Ei. apply nth_error_None in Ei. pose proof (in_rules_lt Hi). unfold E in *. lia. }
  assert (Ch : forall j, In j (children e) -> exists a, judged G W (IE j) a).
  { intros j Hj. destruct (child_in Hi Ei Hj). apply IH; [lia|assumption]. }
  assert (Sq : forall l, incl l (children e) -> exists a, judged G W (ISeq l) a).
  { induction l as [|j l IHl]; intros I; [eexists; constructor|]. destruct (Ch j (I j (or_introl eq_refl))) as [a Ja].
    destruct IHl as [b Jb]; [intros x Hx; apply I; right; exact Hx|]. eexists. constructor; eassumption. }
  assert (Al : forall l, incl l (children e) -> exists a, judged G W (IAlt l) a).
  { induction l as [|j l IHl]; intros I; [eexists; constructor|]. destruct (Ch j (I j (or_introl eq_refl))) as [a Ja].
    destruct IHl as [b Jb]; [intros x Hx; apply I; right; exact Hx|]. eexists. constructor; eassumption. }
  destruct e as [[|c lit]| |cls|id|p|l|l|e|e|e|e|e|e b f|e t|e|e];
    try (destruct (Ch e (or_introl eq_refl)) as [a Ja]); try (eexists; econstructor; eassumption).
  - destruct (an_resolved HG Hi Ei) as [rl F]. pose proof (D _ _ F) as K. destruct (W id) as [a|] eqn:Wi; [|congruence].
    eexists. eapply j_nt; eassumption.
  - destruct (Sq l (incl_refl l)) as [a Ja]. eexists. eapply j_seq; eassumption.
  - destruct (Al l (incl_refl l)) as [a Ja]. eexists. eapply j_alt; eassumption.
  - eexists. eapply j_star; [eassumption|]. constructor. exact Ja.
Qed.

(** The table only ever grows towards the fixpoint. *)
Definition infl (W : string -> option wfa) : Prop := forall id rl a b, find_rule G id = Some rl -> W id = Some a ->
  judged G W (IE (rexpr rl)) b -> wle a b.
Definition rank (a : option wfa) : nat :=
  match a with
  | None => 0
  | Some a => (if can_fail a then 0 else 1) + (if always_consume a then 0 else 1) + (if never_consume a then 1 else 0)
  end.
Definition mu (W : string -> option wfa) : nat := list_sum (map (fun rl => rank (W (rname rl))) (rules G)).

Lemma rank_le a b : wle a b -> rank (Some a) <= rank (Some b).
Proof. intros (A & B & C). cbn. destruct (can_fail a), (can_fail b), (always_consume a), (always_consume b), (never_consume a), (never_consume b); cbn; intuition (try discriminate; try lia). Qed.
Lemma rank_lt a b : can_succeed a = can_succeed b -> wle a b -> a <> b -> rank (Some a) < rank (Some b).
Proof.
  intros S (A & B & C) N. destruct a as [a1 a2 a3 a4], b as [b1 b2 b3 b4]; cbn in *. subst b2.
  destruct a1, b1, a3, b3, a4, b4; cbn; intuition (try discriminate; try lia; try congruence).
Qed.
Lemma rank_opt W W' id : tle W W' -> rank (W id) <= rank (W' id).
Proof. intros T. destruct (W id) as [a|] eqn:Ei; [|cbn; lia]. destruct (T _ _ Ei) as (b & -> & L). apply rank_le, L. Qed.
Lemma mu_le W W' : tle W W' -> mu W <= mu W'.
Proof. intros T. unfold mu. induction (rules G) as [|rl l IH]; [simpl; lia|]. pose proof (rank_opt (rname rl) T). simpl. lia. Qed.
Lemma mu_lt W W' id rl : tle W W' -> find_rule G id = Some rl -> rank (W id) < rank (W' id) -> mu W < mu W'.
Proof.
  intros T F L. destruct (find_rule_some F) as [I <-]. unfold mu. clear F. induction (rules G) as [|r l IH]; [destruct I|].
  pose proof (rank_opt (rname r) T). simpl. destruct I as [-> | I].
  - assert (list_sum (map (fun rl => rank (W (rname rl))) l) <= list_sum (map (fun rl => rank (W' (rname rl))) l)); [|lia].
    clear -T. induction l as [|r l IH]; [simpl; lia|]. pose proof (rank_opt (rname r) T). simpl. lia.
  - specialize (IH I). lia.
Qed.
Lemma rank_3 o : rank o <= 3.
Proof. destruct o as [[a b c d]|]; cbn; [|lia]. destruct a, c, d; cbn; lia. Qed.
Lemma mu_max W : mu W <= 3 * R.
Proof. unfold mu, R. induction (rules G) as [|rl l IH]; [simpl; lia|]. pose proof (rank_3 (W (rname rl))). simpl in *. lia. Qed.

(** One stretch of the analysis without errors. *)
Record seg (st st' : wst) : Prop := {
  sg_le : tle (wtab st) (wtab st');
  sg_infl : infl (wtab st');
  sg_path : wpath st' = wpath st;
  sg_keep : forall id, In id (names (wpath st)) -> wtab st' id = wtab st id;
  sg_mu : wfix st' = wfix st \/ mu (wtab st) < mu (wtab st')
}.
Lemma seg_refl st : infl (wtab st) -> seg st st.
Proof. intros I. split; auto. apply tle_refl. Qed.
Lemma seg_trans a b c : seg a b -> seg b c -> seg a c.
Proof.
  intros [A1 A2 A3 A4 A5] [B1 B2 B3 B4 B5]. split.
  - eapply tle_trans; eassumption.
  - exact B2.
  - congruence.
  - intros id I. rewrite B4; [apply A4, I|]. rewrite A3. exact I.
  - pose proof (mu_le A1). pose proof (mu_le B1). destruct A5 as [A5|A5], B5 as [B5|B5]; [left; congruence|right; lia..].
Qed.
Lemma seg_cons st st' b : seg st st' -> seg st (with_cons st' b).
Proof. intros [A1 A2 A3 A4 A5]. split; assumption. Qed.
Lemma seg_cons_l st st' b : seg (with_cons st b) st' -> seg st st'.
Proof. intros [A1 A2 A3 A4 A5]. split; assumption. Qed.

Definition pre2 (st : wst) : Prop := pre st /\ infl (wtab st).
Definition gpost (it : item) (st : wst) (a : wfa) (st' : wst) : Prop := wok st' = true ->
  seg st st' /\ (forall lo, judged G (wtab st) it lo -> wle lo a) /\ (forall hi, judged G (wtab st') it hi -> wle a hi).
Definition gspec (ve : nat -> wst -> wres (wfa * wst)) : Prop := forall i st a st', in_rules G i -> pre2 st -> ve i st = WOk (a, st') ->
  gpost (IE i) st a st'.

Lemma jt W i : dom_ok W -> in_rules G i -> exists a, judged G W (IE i) a.
Proof. intros D Hi. eapply judged_total; [exact D|apply Nat.lt_succ_diag_r|exact Hi]. Qed.
Lemma jt_seq W l : dom_ok W -> Forall (in_rules G) l -> exists a, judged G W (ISeq l) a.
Proof. intros D F. induction F as [|i l Hi F [b Jb]]; [eexists; constructor|]. destruct (jt D Hi) as [a Ja]. eexists. constructor; eassumption. Qed.
Lemma jt_alt W l : dom_ok W -> Forall (in_rules G) l -> exists a, judged G W (IAlt l) a.
Proof. intros D F. induction F as [|i l Hi F [b Jb]]; [eexists; constructor|]. destruct (jt D Hi) as [a Ja]. eexists. constructor; eassumption. Qed.

Section Grow.
Variable k : nat.
Notation ve := (visit_expr G k).
Hypothesis HV : gspec ve.
Let HQ : qspec G ve := quiet_expr (an_choice HG) (fuel := k).

Lemma grow_rule id rl st a st' : find_rule G id = Some rl -> pre2 st -> visit_rule G ve id st = WOk (a, st') -> wok st' = true ->
  seg st st' /\ (forall lo, wtab st id = Some lo -> wle lo a) /\ wtab st' id = Some a.
Proof.
  intros F P2 H O. unfold visit_rule in H. apply wbind_ok in H. destruct H as (st1 & H & K).
  destruct (wtab st1 id) as [a1|] eqn:T; [|discriminate]. apply WOk_inj, pair_inj in K. destruct K as [-> ->].
  destruct P2 as [P I].
  destruct (is_rec id st) eqn:Rc.
  - destruct (negb (consume_input_since id st) && negb (wcons st)).
    + exfalso. unfold error_left_recursion in H. rewrite F in H. apply WOk_inj in H. subst st'.
      destruct (later_report (DLeft (id :: rev (map fst (rec_path_from id (wpath st))))) (rexpr rl) (with_ok st false)) as [L _]. specialize (L O). discriminate.
    + apply WOk_inj in H. subst st'. split; [apply seg_refl, I|]. split; [|exact T]. intros lo E. assert (lo = a) as -> by congruence. apply wle_refl.
  - rewrite F in H. apply wbind_ok in H. destruct H as ([b st2] & H & K). cbn [fst snd] in K.
    apply wbind_ok in K. destruct K as (st3 & Po & U).
    assert (NI : ~ In id (names (wpath st))).
    { intros Hin. unfold names in Hin. apply in_map_iff in Hin. destruct Hin as (q & Eq & Hin).
      assert (K : is_rec id st = true) by (apply existsb_exists; exists q; split; [exact Hin|apply String.eqb_eq, Eq]). congruence. }
    assert (PP : pre2 (push_rule id st)).
    { destruct P as ([C Tb] & D & Pa). split; [|exact I]. split; [split; assumption|]. split; [exact D|]. eapply path_ok_push; eassumption. }
    pose proof (HV (in_rules_rule F) PP H) as Q. pose proof (pre_expr (proj1 PP) H) as [Pr2 Ep2].
    unfold pop_rule in Po. rewrite Ep2 in Po. cbn [push_rule with_cons with_path wpath] in Po. apply WOk_inj in Po. subst st3.
    unfold fixpoint_update in U. cbn [with_cons with_path wtab] in U.
    destruct (wtab st2 id) as [b0|] eqn:T2; [|discriminate]. apply WOk_inj in U.
    assert (O2 : wok st2 = true) by (subst st'; destruct (wfa_eqb b b0); exact O).
    destruct (Q O2) as (Sg & Lo & Hi). cbn [push_rule with_cons with_path wtab] in Lo.
    assert (Kp : wtab st2 id = wtab st id) by (apply (sg_keep Sg); left; reflexivity).
    destruct P as ([C Tb] & D & Pa). pose proof Pr2 as ([C2 Tb2] & D2 & _).
    destruct (jt D (in_rules_rule F)) as [lo Jlo]. destruct (jt D2 (in_rules_rule F)) as [hi Jhi].
    assert (L0 : wle b0 b). { eapply wle_trans; [|exact (Lo lo Jlo)]. apply (I id rl b0 lo F); [congruence|exact Jlo]. }
    destruct (wfa_eqb b b0) eqn:Eq.
    + apply wfa_eqb_eq in Eq. subst b0 st'. cbn [with_cons with_path wtab] in T. assert (b = a) as -> by congruence.
      split; [|split; [|exact T2]].
      * destruct Sg as [S1 S2 S3 S4 S5]. split; [exact S1|exact S2|reflexivity| |exact S5].
        intros x Hx. apply S4. right. exact Hx.
      * intros l0 E. assert (l0 = a) as -> by congruence. apply wle_refl.
    + assert (Ea : a = b). { subst st'. cbn in T. rewrite String.eqb_refl in T. congruence. } subst a.
      set (W' := fun x => if String.eqb x id then Some b else wtab st2 x) in *.
      assert (EW : wtab st' = W') by (subst st'; reflexivity).
      assert (T2' : tle (wtab st2) W').
      { intros x y Ex. unfold W'. destruct (String.eqb x id) eqn:E1; [|exists y; split; [exact Ex|apply wle_refl]].
        apply String.eqb_eq in E1. subst x. exists b. split; [reflexivity|]. assert (y = b0) as -> by congruence. exact L0. }
      assert (D' : dom_ok W').
      { intros x r Fx. unfold W'. destruct (String.eqb x id); [discriminate|]. exact (D2 x r Fx). }
      assert (Lt : mu (wtab st2) < mu W').
      { eapply mu_lt; [exact T2'|exact F|]. rewrite T2. unfold W'. rewrite String.eqb_refl. apply rank_lt; [|exact L0|].
        - destruct (HQ H) as [_ S2]. destruct (S2 (proj1 (proj1 PP))) as [[A _] _]. destruct (Tb2 _ _ T2) as [B _]. congruence.
        - intros ->. rewrite wfa_eqb_refl in Eq. discriminate. }
      split; [|split].
      * destruct Sg as [S1 S2 S3 S4 S5]. cbn [push_rule with_cons with_path wtab] in *. split.
        -- rewrite EW. eapply tle_trans; [exact S1|exact T2'].
        -- rewrite EW. intros x r y z Fx Ex Jz. destruct (jt D2 (in_rules_rule Fx)) as [m Jm].
           assert (Lm : wle m z) by (eapply judged_mono; [exact T2'|exact Jm|exact Jz]).
           unfold W' in Ex. destruct (String.eqb x id) eqn:E1.
           ++ apply String.eqb_eq in E1. subst x. rewrite F in Fx. injection Fx as <-. injection Ex as <-.
              eapply wle_trans; [exact (Hi m Jm)|exact Lm].
           ++ eapply wle_trans; [exact (S2 _ _ _ _ Fx Ex Jm)|exact Lm].
        -- subst st'. reflexivity.
        -- intros x Hx. rewrite EW. unfold W'. destruct (String.eqb x id) eqn:E1; [apply String.eqb_eq in E1; subst x; contradiction|].
           apply S4. right. exact Hx.
        -- right. rewrite EW. pose proof (mu_le S1). lia.
      * intros l0 E0. assert (l0 = b0) as -> by congruence. exact L0.
      * rewrite EW. unfold W'. rewrite String.eqb_refl. reflexivity.
Qed.

Lemma pre2_next i st a st' : in_rules G i -> pre2 st -> ve i st = WOk (a, st') -> wok st' = true -> pre2 st' /\ seg st st' /\ can_succeed a = true.
Proof.
  intros Hi P H O. pose proof (HV Hi P H O) as (Sg & _). split; [split; [exact (proj1 (pre_expr (proj1 P) H))|exact (sg_infl Sg)]|].
  split; [exact Sg|]. destruct (HQ H) as [_ S]. exact (proj1 (proj1 (S (proj1 (proj1 P))))).
Qed.
Lemma pre2_cons st b : pre2 st -> pre2 (with_cons st b).
Proof. intros [P I]. split; [apply pre_cons, P|exact I]. Qed.

Lemma wle_seq_acc acc a b acc' : wle (seq_acc (seq_acc acc a) b) acc' <-> wle (seq_acc acc (seq_acc a b)) acc'.
Proof. unfold wle, seq_acc. cbn. rewrite !orb_assoc, !andb_assoc. reflexivity. Qed.

Lemma grow_seq l : forall acc st r st', Forall (in_rules G) l -> pre2 st -> visit_sequence_from ve l acc st = WOk (r, st') -> wok st' = true ->
  seg st st' /\ (forall lo, judged G (wtab st) (ISeq l) lo -> wle (seq_acc acc lo) r) /\ (forall hi, judged G (wtab st') (ISeq l) hi -> wle r (seq_acc acc hi)).
Proof.
  induction l as [|i l IH]; intros acc st r st' Fl P H O; cbn [visit_sequence_from] in H.
  - apply WOk_inj, pair_inj in H. destruct H as [<- <-]. split; [apply seg_refl, P|]. 
    split; intros q J; inversion J; subst; repeat split; cbn; rewrite ?orb_false_r, ?andb_true_r; auto.
  - apply wbind_ok in H. destruct H as ([c st1] & H & K). cbn [fst snd] in K. inversion Fl as [|? ? Hi Fl']; subst.
    set (st2 := if always_consume c then with_cons st1 true else st1) in *.
    set (acc2 := mkWfa _ _ _ _) in K. change acc2 with (seq_acc acc c) in K. clear acc2.
    assert (L12 : later st1 st2) by (subst st2; destruct (always_consume c); [apply later_cons|apply later_refl]).
    destruct (quiet_seq HQ K) as [L2 _]. assert (O1 := proj1 L12 (proj1 L2 O)).
    destruct (pre2_next Hi P H O1) as (P1 & Sg1 & CS). destruct (HV Hi P H O1) as (_ & Lo1 & Hi1).
    assert (P2 : pre2 st2) by (subst st2; destruct (always_consume c); [apply pre2_cons|]; exact P1).
    assert (ET : wtab st2 = wtab st1) by (subst st2; destruct (always_consume c); reflexivity).
    assert (S12 : seg st st2) by (subst st2; destruct (always_consume c); [apply seg_cons|]; exact Sg1).
    destruct (IH _ _ _ _ Fl' P2 K O) as (Sg2 & Lo2 & Hi2). rewrite ET in Lo2. split; [eapply seg_trans; eassumption|].
    destruct P1 as [[_ [D1 _]] _]. assert (D' : dom_ok (wtab st')).
    { intros x rl Fx Nx. specialize (D1 _ _ Fx). destruct (wtab st1 x) as [y|] eqn:Ex; [|congruence].
      rewrite <- ET in Ex. destruct (sg_le Sg2 Ex) as (z & Ez & _). congruence. }
    split.
    + intros lo J. inversion J as [| | | | | | | | | | | | | | | | | |? ? x y Jx Jy| | |]; subst.
      destruct (jt_seq D1 Fl') as [y1 Jy1]. specialize (Lo2 _ Jy1). apply wle_seq_acc in Lo2.
      eapply wle_trans; [|exact Lo2]. pose proof (judged_mono (sg_le Sg1) Jy Jy1) as M. pose proof (Lo1 _ Jx) as M1.
      unfold seq_acc. cbn. refine (@wle_seq acc (seq_acc x y) acc (seq_acc c y1) _ _ (wle_refl _) _).
      apply wle_seq; assumption.
    + intros hi J. inversion J as [| | | | | | | | | | | | | | | | | |? ? x y Jx Jy| | |]; subst.
      eapply wle_trans; [exact (Hi2 _ Jy)|]. apply wle_seq_acc.
      destruct (jt D1 Hi) as [x1 Jx1]. pose proof (Hi1 _ Jx1) as M1. rewrite <- ET in Jx1. pose proof (judged_mono (sg_le Sg2) Jx1 Jx) as MM.
      refine (@wle_seq acc (seq_acc c y) acc (seq_acc x y) _ _ (wle_refl _) _).
      apply wle_seq; [eapply wle_trans; eassumption|apply wle_refl].
Qed.

Lemma wle_alt_acc acc a b acc' : wle (alt_acc (alt_acc acc a) b) acc' <-> wle (alt_acc acc (alt_acc a b)) acc'.
Proof. unfold wle, alt_acc. cbn. rewrite !andb_assoc. reflexivity. Qed.
Lemma wle_alt_acc_r acc a b acc' : wle acc' (alt_acc (alt_acc acc a) b) <-> wle acc' (alt_acc acc (alt_acc a b)).
Proof. unfold wle, alt_acc. cbn. rewrite !andb_assoc. reflexivity. Qed.

Lemma grow_alt this l : forall acc st r st', Forall (in_rules G) l -> pre2 st -> visit_choice_from ve this l acc st = WOk (r, st') -> wok st' = true ->
  seg st st' /\ (forall lo, judged G (wtab st) (IAlt l) lo -> wle (alt_acc acc lo) r) /\ (forall hi, judged G (wtab st') (IAlt l) hi -> wle r (alt_acc acc hi)).
Proof.
  induction l as [|i l IH]; intros acc st r st' Fl P H O; cbn [visit_choice_from] in H.
  - apply WOk_inj, pair_inj in H. destruct H as [<- <-]. split; [apply seg_refl, P|].
    split; intros q J; inversion J; subst; repeat split; cbn; rewrite ?andb_true_r; auto.
  - apply wbind_ok in H. destruct H as ([c st1] & H & K). cbn [fst snd] in K. inversion Fl as [|? ? Hi Fl']; subst.
    set (st2 := with_cons st1 (wcons st)) in *.
    change (match l with [] => WOk (alt_acc acc c, st2) | _ :: _ => if negb (can_fail c) then WOk (alt_acc acc c, report (DBranch this i) i st2) else visit_choice_from ve this l (alt_acc acc c) st2 end = WOk (r, st')) in K.
    assert (Step : wok st1 = true -> pre2 st2 /\ seg st st2 /\ (forall lo, judged G (wtab st) (IE i) lo -> wle lo c) /\ (forall hi, judged G (wtab st2) (IE i) hi -> wle c hi)).
    { intros O1. destruct (pre2_next Hi P H O1) as (P1 & Sg1 & CS). destruct (HV Hi P H O1) as (_ & Lo1 & Hi1).
      split; [apply pre2_cons, P1|]. split; [apply seg_cons, Sg1|]. split; [exact Lo1|exact Hi1]. }
    destruct l as [|j l].
    + apply WOk_inj, pair_inj in K. destruct K as [<- <-]. destruct (Step O) as (P2 & Sg & Lo & Hh). split; [exact Sg|].
      split; intros q J; inversion J as [| | | | | | | | | | | | | | | | | | | |? ? x y Jx Jy|]; subst; inversion Jy; subst.
      * refine (@wle_alt acc _ acc c _ _ (wle_refl _) _). specialize (Lo _ Jx). unfold wle in *. cbn. rewrite !andb_true_r. exact Lo.
      * refine (@wle_alt acc c acc _ _ _ (wle_refl _) _). specialize (Hh _ Jx). unfold wle in *. cbn. rewrite !andb_true_r. exact Hh.
    + remember (j :: l) as jl eqn:Ejl.
      assert (K' : (if negb (can_fail c) then WOk (alt_acc acc c, report (DBranch this i) i st2) else visit_choice_from ve this jl (alt_acc acc c) st2) = WOk (r, st'))
        by (subst jl; exact K). clear K. rename K' into K.
      destruct (negb (can_fail c)).
      * exfalso. apply WOk_inj, pair_inj in K. destruct K as [<- <-]. pose proof (proj1 (later_report _ i st2) O) as O1. destruct (Step O1) as ([[I _] _] & _).
        exact (report_noisy I O).
      * destruct (quiet_alt HQ K) as [L2 _]. assert (O1 : wok st1 = true) by exact (proj1 L2 O). destruct (Step O1) as (P2 & Sg1 & Lo1 & Hi1).
        destruct (IH _ _ _ _ Fl' P2 K O) as (Sg2 & Lo2 & Hi2). split; [eapply seg_trans; eassumption|].
        destruct P2 as [[_ [D2 _]] _]. split.
        -- intros lo J. inversion J as [| | | | | | | | | | | | | | | | | | | |? ? x y Jx Jy|]; subst.
           destruct (jt_alt D2 Fl') as [y1 Jy1]. specialize (Lo2 _ Jy1). apply wle_alt_acc in Lo2.
           eapply wle_trans; [|exact Lo2]. pose proof (judged_mono (sg_le Sg1) Jy Jy1) as M. pose proof (Lo1 _ Jx) as M1.
           refine (@wle_alt acc (alt_acc x y) acc (alt_acc c y1) _ _ (wle_refl _) _). apply wle_alt; assumption.
        -- intros hi J. inversion J as [| | | | | | | | | | | | | | | | | | | |? ? x y Jx Jy|]; subst.
           eapply wle_trans; [exact (Hi2 _ Jy)|]. apply wle_alt_acc.
           destruct (jt D2 Hi) as [x1 Jx1]. pose proof (Hi1 _ Jx1) as M1. pose proof (judged_mono (sg_le Sg2) Jx1 Jx) as MM.
           refine (@wle_alt acc (alt_acc c y) acc (alt_acc x y) _ _ (wle_refl _) _).
           apply wle_alt; [eapply wle_trans; eassumption|apply wle_refl].
Qed.

Lemma grow_walk i st a st' : in_rules G i -> pre2 st -> walk G ve i st = WOk (a, st') -> wok st' = true ->
  seg st st' /\ (can_succeed a = true -> (forall lo, judged G (wtab st) (IE i) lo -> wle lo a) /\ (forall hi, judged G (wtab st') (IE i) hi -> wle a hi)).
Proof.
  intros Hin P H O. unfold walk in H. destruct (expr_of G i) as [e|] eqn:Ei; [|discriminate].
  assert (Ch : forall j, In j (children e) -> in_rules G j) by (intros; eapply in_rules_child; eassumption).
  assert (Atom : forall x, WOk (x, st) = WOk (a, st') -> (forall W b, judged G W (IE i) b -> b = x) ->
     seg st st' /\ (can_succeed a = true -> (forall lo, judged G (wtab st) (IE i) lo -> wle lo a) /\ (forall hi, judged G (wtab st') (IE i) hi -> wle a hi))).
  { intros x E1 U. apply WOk_inj, pair_inj in E1. destruct E1 as [<- <-]. split; [apply seg_refl, P|]. intros _.
    split; intros b J; rewrite (U _ _ J); apply wle_refl. }
  assert (Un : forall j x st1, In j (children e) -> ve j st = WOk (x, st1) -> wok st1 = true ->
     seg st st1 /\ can_succeed x = true /\ pre2 st1 /\ (forall lo, judged G (wtab st) (IE j) lo -> wle lo x) /\ (forall hi, judged G (wtab st1) (IE j) hi -> wle x hi)).
  { intros j x st1 Hj V O1. destruct (pre2_next (Ch j Hj) P V O1) as (P1 & Sg & CS). destruct (HV (Ch j Hj) P V O1) as (_ & L & U). auto. }
  assert (Rep : forall j x st1, In j (children e) -> visit_repeat ve i j st = WOk (x, st1) -> wok st1 = true ->
     seg st st1 /\ (forall lo, judged G (wtab st) (IE j) lo -> wle lo x) /\ (forall hi, judged G (wtab st1) (IE j) hi -> wle x hi)).
  { intros j x st1 Hj V O1. unfold visit_repeat in V. apply wbind_ok in V. destruct V as ([y st2] & V & K). cbn [fst snd] in K.
    destruct (can_succeed y && negb (always_consume y)).
    - exfalso. apply WOk_inj, pair_inj in K. destruct K as [<- <-].
      destruct (Un _ _ _ Hj V (proj1 (later_report _ i st2) O1)) as (_ & _ & [[I _] _] & _). exact (report_noisy I O1).
    - apply WOk_inj, pair_inj in K. destruct K as [<- <-]. destruct (Un _ _ _ Hj V O1) as (A & _ & _ & B & C). auto. }
  assert (Same : forall j, In j (children e) -> (forall W b, judged G W (IE i) b -> judged G W (IE j) b) -> ve j st = WOk (a, st') ->
     seg st st' /\ (can_succeed a = true -> (forall lo, judged G (wtab st) (IE i) lo -> wle lo a) /\ (forall hi, judged G (wtab st') (IE i) hi -> wle a hi))).
  { intros j Hj U V. destruct (Un _ _ _ Hj V O) as (A & _ & _ & B & C). split; [exact A|]. intros _. split; intros; [apply B|apply C]; apply U; assumption. }
  destruct e as [[|c lit]| |cls|id|p|l|l|e|e|e|e|e|e b f|e t|e|e];
    try (eapply Atom; [exact H|]; intros W b J; inversion J; subst; same_expr; reflexivity);
    try (eapply (Same e); [left; reflexivity| |exact H]; intros W b0 J; inversion J; subst; same_expr; assumption).
  - destruct (an_resolved HG Hin Ei) as [rl F]. destruct (grow_rule F P H O) as (Sg & Lo & Ta). split; [exact Sg|]. intros _. split.
    + intros lo J. inversion J; subst; same_expr. apply Lo. assumption.
    + intros hi J. inversion J; subst; same_expr. assert (hi = a) as -> by congruence. apply wle_refl.
  - apply wbind_ok in H. destruct H as ([x st1] & H & K). cbn [fst snd] in K. apply WOk_inj, pair_inj in K. destruct K as [<- <-].
    destruct (grow_seq (proj2 (Forall_forall _ _) Ch) P H O) as (Sg & Lo & Hh). split; [apply seg_cons, Sg|]. intros _. split.
    + intros lo J. inversion J; subst; same_expr. match goal with J' : judged _ _ (ISeq _) _ |- _ => specialize (Lo _ J') end. exact Lo.
    + intros hi J. inversion J; subst; same_expr. match goal with J' : judged _ _ (ISeq _) _ |- _ => specialize (Hh _ J') end. exact Hh.
  - destruct (grow_alt (proj2 (Forall_forall _ _) Ch) P H O) as (Sg & Lo & Hh). split; [exact Sg|]. intros _. split.
    + intros lo J. inversion J; subst; same_expr. match goal with J' : judged _ _ (IAlt _) _ |- _ => specialize (Lo _ J') end. exact Lo.
    + intros hi J. inversion J; subst; same_expr. match goal with J' : judged _ _ (IAlt _) _ |- _ => specialize (Hh _ J') end. exact Hh.
  - apply wbind_ok in H. destruct H as ([x st1] & H & K). cbn [fst snd] in K. apply WOk_inj, pair_inj in K. destruct K as [<- <-].
    destruct (Rep _ _ _ (or_introl eq_refl) H O) as (A & B & C). split; [exact A|]. intros _.
    split; intros q J; inversion J; subst; same_expr; match goal with J' : judged _ _ (IStar _) _ |- _ => inversion J'; subst end; apply wle_star; auto.
  - destruct (Rep _ _ _ (or_introl eq_refl) H O) as (A & B & C). split; [exact A|]. intros _.
    split; intros q J; inversion J; subst; same_expr; auto.
  - apply wbind_ok in H. destruct H as ([x st1] & H & K). cbn [fst snd] in K. apply WOk_inj, pair_inj in K. destruct K as [<- <-].
    destruct (Un _ _ _ (or_introl eq_refl) H O) as (A & _ & _ & B & C). split; [exact A|]. intros _.
    split; intros q J; inversion J; subst; same_expr; apply wle_star; auto.
  - apply wbind_ok in H. destruct H as ([y st1] & H & K). cbn [fst snd] in K. apply WOk_inj, pair_inj in K. destruct K as [<- <-].
    unfold visit_predicate in H. apply wbind_ok in H. destruct H as ([x st2] & H & K). cbn [fst snd] in K. apply WOk_inj, pair_inj in K. destruct K as [<- <-].
    destruct (Un _ _ _ (or_introl eq_refl) H O) as (A & CS & _ & B & C). split; [exact A|]. cbn [can_succeed can_fail always_consume never_consume]. intros CF.
    split; intros q J; inversion J; subst; same_expr; rewrite CS, CF; apply wle_refl.
  - unfold visit_predicate in H. apply wbind_ok in H. destruct H as ([x st2] & H & K). cbn [fst snd] in K. apply WOk_inj, pair_inj in K. destruct K as [<- <-].
    destruct (Un _ _ _ (or_introl eq_refl) H O) as (A & CS & _ & B & C). split; [exact A|]. intros CF.
    split; intros q J; inversion J; subst; same_expr; apply wle_pred; auto.
Qed.
End Grow.

Lemma grow_expr k : gspec (visit_expr G k).
Proof.
  induction k as [|k IH]; intros i st a st' Hi P H O; [discriminate|]. cbn [visit_expr] in H.
  apply wbind_ok in H. destruct H as ([x st1] & H & K). cbn [fst snd] in K.
  destruct (quiet_walk (quiet_expr (an_choice HG) (fuel := k)) (@an_choice _ HG i) H) as [[_ Q] _]. destruct (Q (proj1 (proj1 P))) as [I1 _].
  destruct (negb (can_fail x || can_succeed x)) eqn:A1; [discriminate|].
  destruct (negb (negb (always_consume x) || negb (never_consume x))); [discriminate|].
  destruct (can_fail x && negb (can_succeed x)) eqn:C1; [|destruct (can_succeed x && negb (can_fail x) && never_consume x)];
    apply WOk_inj, pair_inj in K; destruct K as [<- <-]; try (exfalso; exact (report_noisy I1 O)).
  destruct (grow_walk IH Hi P H O) as [Sg K]. split; [exact Sg|]. apply K. destruct (can_fail x), (can_succeed x); try reflexivity; discriminate.
Qed.

Lemma rule_found rl : In rl (rules G) -> exists rl', find_rule G (rname rl) = Some rl'.
Proof.
  intros I. unfold find_rule. destruct (find (fun r => String.eqb (rname r) (rname rl)) (rules G)) as [r|] eqn:F; [eauto|].
  apply (find_none _ _ F) in I. rewrite String.eqb_refl in I. discriminate.
Qed.

Definition fuel0 := (R + 1) * (E + 1).

Lemma pre_rule fuel id st a st' : pre st -> visit_rule G (visit_expr G fuel) id st = WOk (a, st') -> pre st' /\ wpath st' = wpath st.
Proof.
  intros P H. pose proof (frame_rule (@frame_expr _ fuel) H) as F. split; [|exact (proj1 F)]. eapply pre_frame; [exact P|exact F|].
  destruct (quiet_rule_root (an_choice HG) H) as [_ Q]. apply Q, P.
Qed.

Lemma pass_total rs : forall st, incl rs (rules G) -> pre2 st -> wpath st = [] ->
  exists st', visit_pass G fuel0 rs st = WOk st' /\ (wok st' = true -> pre2 st' /\ seg st st').
Proof.
  induction rs as [|rl rs IH]; intros st I P Ep; cbn [visit_pass].
  - exists st. split; [reflexivity|]. intros _. split; [exact P|apply seg_refl, P].
  - destruct (rule_found (I rl (or_introl eq_refl))) as [rl' F].
    destruct (@rule_total fuel0 (rname rl) rl' st F (proj1 P)) as (a & st1 & H).
    + intros _. rewrite Ep. cbn [length]. unfold fuel0. rewrite Nat.sub_0_r.
      destruct R as [|r]; [simpl; lia|]. replace (Datatypes.S r - 1) with r by lia. nia.
    + intros i Hi. apply visit_total, Hi.
    + rewrite H. cbn [wbind fst snd]. destruct (pre_rule (proj1 P) H) as [P1 Ep1]. destruct (wok st1) eqn:O1.
      * destruct (grow_rule (@grow_expr fuel0) F P H O1) as (Sg & _ & _).
        destruct (IH st1) as (st' & H' & K); [intros x Hx; apply I; right; exact Hx|split; [exact P1|exact (sg_infl Sg)]|congruence|].
        exists st'. split; [exact H'|]. intros O. destruct (K O) as [P' Sg']. split; [exact P'|eapply seg_trans; eassumption].
      * exists st1. split; [reflexivity|]. congruence.
Qed.

Lemma rules_total n : forall st, pre2 st -> wpath st = [] -> 3 * R < mu (wtab st) + n -> exists st', visit_rules G fuel0 n st = WOk st'.
Proof.
  induction n as [|n IH]; intros st P Ep L; cbn [visit_rules].
  - pose proof (mu_max (wtab st)). lia.
  - destruct (negb (wfix st) && wok st) eqn:C; [|eauto]. apply andb_true_iff in C. destruct C as [C O0]. 
    assert (P' : pre2 (with_fix st true)).
    { destruct P as [((Cl & T) & D & Pa) I]. split; [|exact I]. split; [split; assumption|]. split; assumption. }
    destruct (@pass_total (rules G) (with_fix st true) (incl_refl _) P' Ep) as (st1 & H & K). rewrite H. cbn [wbind].
    destruct (wok st1) eqn:O1.
    + destruct (K eq_refl) as [P1 Sg]. destruct (sg_mu Sg) as [Fx|Lt].
      * cbn in Fx. exists st1. destruct n; cbn [visit_rules]; rewrite Fx; reflexivity.
      * apply IH; [exact P1|rewrite (sg_path Sg); exact Ep|]. cbn in Lt. lia.
    + exists st1. destruct n; cbn [visit_rules]; rewrite O1, andb_false_r; reflexivity.
Qed.

Lemma default_least a : wle wfa_default a.
Proof. repeat split; cbn; auto; discriminate. Qed.

Theorem analysis_total : exists b, is_well_formed G fuel0 (3 * R + 1) = WOk b.
Proof.
  unfold is_well_formed. destruct (@rules_total (3 * R + 1) (wst_new G)) as [st H].
  - split; [split; [apply sinv_new|split]|].
    + intros id rl F. cbn. rewrite F. discriminate.
    + split; [constructor|intros x []].
    + intros id rl a b F T _. cbn in T. rewrite F in T. injection T as <-. apply default_least.
  - reflexivity.
  - lia.
  - rewrite H. cbn [wbind]. eauto.
Qed.
End Term.
