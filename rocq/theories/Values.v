(** What the parsers of particular shapes of rules return, and when actions are called. *)
From Verif Require Import Base Utf8 Stream ParseState RuntimeFacts Grammar PegSpec Target Compile TargetFacts ScopeFacts
  CompileShape EvalRules CompileCorrect ScopeGen GenTotal PegFacts Running WellFormed WfFacts WfSound PegRun Behave.
Set Implicit Arguments. Unset Strict Implicit.

Section Values.
Variables (G : grammar) (X : extern) (xf : mode -> list string -> pst -> outcome (pst * alog)) (t : text).
Hypothesis HR : ready G X xf t.
Notation ep := (ep G X (off t)).

Ltac same_expr := repeat match goal with
  | H1 : expr_of G ?i = Some _, H2 : expr_of G ?i = Some _ |- _ => rewrite H1 in H2; first [discriminate H2|injection H2; intros; subst; clear H2]
  end.

Lemma silent_acts evs : only_errs evs = evs -> action_trace evs = [].
Proof.
  intros <-. unfold action_trace. induction evs as [|[p g|f a] evs IH]; [reflexivity|exact IH|exact IH].
Qed.
Lemma unit_silent i s r evs : is_unit G i = true -> ep Par (IE i) s r evs ->
  action_trace evs = [] /\ (forall s1 vs, r = Some (s1, vs) -> vs = []).
Proof.
  intros U H. pose proof (ep_unit_inv H U) as K. destruct (rec_silent (se_sane HR) K) as [A B]. split; [apply silent_acts, A|].
  intros s1 vs E. exact (B s1 vs E).
Qed.
Lemma units_silent l : Forall (fun i => is_unit G i = true) l -> forall s s1 vs evs, ep Par (ISeq l) s (Some (s1, vs)) evs -> vs = [].
Proof.
  induction 1 as [|i l U F IH]; intros s s1 vs evs H; inversion H; subst; [reflexivity|].
  match goal with K : ep Par (IE i) _ _ _ |- _ => pose proof (proj2 (unit_silent U K) _ _ eq_refl) as -> end.
  cbn [app]. eapply IH; eassumption.
Qed.
Lemma ep_seq_split m l1 l2 s s2 vs evs : ep m (ISeq (l1 ++ l2)) s (Some (s2, vs)) evs ->
  exists s1 v1 v2 e1 e2, ep m (ISeq l1) s (Some (s1, v1)) e1 /\ ep m (ISeq l2) s1 (Some (s2, v2)) e2 /\ vs = v1 ++ v2 /\ evs = e1 ++ e2.
Proof.
  revert s vs evs. induction l1 as [|i l1 IH]; intros s vs evs H; cbn [app] in H.
  - exists s, [], vs, [], evs. split; [constructor|]. auto.
  - inversion H; subst. match goal with K : ep m (ISeq (l1 ++ l2)) _ _ _ |- _ => destruct (IH _ _ _ K) as (a & v1 & v2 & e1 & e2 & A & B & -> & ->) end.
    do 5 eexists. split; [eapply ep_seq_cons_ok; eassumption|]. split; [exact B|]. rewrite !app_assoc. auto.
Qed.

Lemma off_pre pre rest : t = pre ++ rest -> off t rest = length (enc pre).
Proof. intros E. unfold off. rewrite E, enc_app, app_length. lia. Qed.

(** A sequence in which only [p] builds data. *)
Lemma seq_one i l1 p l2 s rest vs evs : is_unit G i = false -> expr_of G i = Some (ESeq (l1 ++ p :: l2)) ->
  Forall (fun i => is_unit G i = true) l1 -> Forall (fun i => is_unit G i = true) l2 ->
  ep Par (IE i) s (Some (rest, vs)) evs ->
  exists s1 s2 e1 e2 e3, ep Par (ISeq l1) s (Some (s1, [])) e1 /\ ep Par (IE p) s1 (Some (s2, vs)) e2
    /\ ep Par (ISeq l2) s2 (Some (rest, [])) e3.
Proof.
  intros U E U1 U2 H. inversion H; subst; cbn [active] in *; same_expr; try congruence.
  match goal with K : ep Par (ISeq _) _ _ _ |- _ => apply ep_seq_split in K; destruct K as (s1 & v1 & v2 & e1 & e2 & A & B & -> & ->) end.
  inversion B; subst. match goal with K : ep Par (ISeq l2) _ _ _ |- _ => pose proof (units_silent U2 K) end.
  pose proof (units_silent U1 A). subst. rewrite app_nil_r. cbn [app]. eauto 10.
Qed.

Lemma ep_ok_forget m it s s1 vs evs : ep m it s (Some (s1, vs)) evs -> matches G (ford_ext X) it s (Some s1).
Proof. intros H. exact (ep_matches (se_sane HR) H). Qed.

Theorem range_value id rl i l1 p l2 e st log :
  parsers_ok G -> find_rule G id = Some rl -> returns G xf Par id t st log ->
  rexpr rl = i -> is_unit G i = false -> expr_of G i = Some (ESeq (l1 ++ p :: l2)) ->
  Forall (fun i => is_unit G i = true) l1 -> Forall (fun i => is_unit G i = true) l2 ->
  is_unit G p = false -> expr_of G p = Some (ERange e) -> is_unit G e = true -> is_failed st = false ->
  exists pre mid post rest, t = pre ++ mid ++ post /\ matches G (ford_ext X) (ISeq l1) t (Some (mid ++ post))
    /\ matches G (ford_ext X) (IE e) (mid ++ post) (Some post) /\ matches G (ford_ext X) (ISeq l2) post (Some rest)
    /\ data st = Some (VRange (length (enc pre)) (length (enc (pre ++ mid)))).
Proof.
  intros HP F R <- U E U1 U2 Up Ep Ue Ok. destruct (run_outcome HR (m := Par) HP F R) as (r & evs & H & _ & _ & _ & K).
  destruct r as [[rest vs]|]; [|destruct K as [K _]; congruence]. destruct K as (Sf & _ & Da).
  destruct (seq_one U E U1 U2 H) as (s1 & s2 & e1 & e2 & e3 & A & B & C).
  pose proof (ep_suffix1 (se_ext HR) A (suffix_all t)) as S1. pose proof (ep_suffix (se_ext HR) B S1) as [mid Em].
  destruct S1 as [pre Et]. exists pre, mid, s2, rest. rewrite <- Em. split; [exact Et|]. split; [exact (ep_ok_forget A)|].
  assert (M : exists vs' e', ep Par (IE e) s1 (Some (s2, vs')) e' /\ vs = VRange (off t s1) (off t s2) :: vs').
  { inversion B; subst; cbn [active] in *; same_expr; try congruence. eauto. }
  destruct M as (vs' & e' & M & ->). split; [exact (ep_ok_forget M)|]. split; [exact (ep_ok_forget C)|].
  pose proof (proj2 (unit_silent Ue M) _ _ eq_refl) as ->. rewrite Da. cbn [tup]. f_equal.
  rewrite (off_pre Et). rewrite (off_pre (pre := pre ++ mid)); [reflexivity|]. rewrite <- app_assoc. congruence.
Qed.

Theorem span_value id rl i l1 p l2 e st log :
  parsers_ok G -> find_rule G id = Some rl -> returns G xf Par id t st log ->
  rexpr rl = i -> is_unit G i = false -> expr_of G i = Some (ESeq (l1 ++ p :: l2)) ->
  Forall (fun i => is_unit G i = true) l1 -> Forall (fun i => is_unit G i = true) l2 ->
  is_unit G p = false -> expr_of G p = Some (ESpan e) -> is_failed st = false ->
  exists pre mid post rest vs evs, t = pre ++ mid ++ post /\ matches G (ford_ext X) (ISeq l1) t (Some (mid ++ post))
    /\ ep Par (IE e) (mid ++ post) (Some (post, vs)) evs /\ matches G (ford_ext X) (ISeq l2) post (Some rest)
    /\ data st = Some (tup (VSpan (N.of_nat (length (enc pre)) mod 2 ^ 32) (N.of_nat (length (enc (pre ++ mid))) mod 2 ^ 32) :: vs)).
Proof.
  intros HP F R <- U E U1 U2 Up Ep Ok. destruct (run_outcome HR (m := Par) HP F R) as (r & evs & H & _ & _ & _ & K).
  destruct r as [[rest vs]|]; [|destruct K as [K _]; congruence]. destruct K as (Sf & _ & Da).
  destruct (seq_one U E U1 U2 H) as (s1 & s2 & e1 & e2 & e3 & A & B & C).
  pose proof (ep_suffix1 (se_ext HR) A (suffix_all t)) as S1. pose proof (ep_suffix (se_ext HR) B S1) as [mid Em].
  destruct S1 as [pre Et].
  assert (M : exists vs' e', ep Par (IE e) s1 (Some (s2, vs')) e' /\ vs = VSpan (u32_of (off t s1)) (u32_of (off t s2)) :: vs').
  { inversion B; subst; cbn [active] in *; same_expr; try congruence. eauto. }
  destruct M as (vs' & e' & M & ->). exists pre, mid, s2, rest, vs', e'. rewrite <- Em. split; [exact Et|]. split; [exact (ep_ok_forget A)|].
  split; [exact M|]. split; [exact (ep_ok_forget C)|]. rewrite Da. do 2 f_equal.
  rewrite (off_pre Et). rewrite (off_pre (pre := pre ++ mid)); [reflexivity|]. rewrite <- app_assoc. congruence.
Qed.

(** A range or a span wherever it is in the rule, whatever surrounds it. *)
Theorem range_anywhere p e pre s post vs evs : is_unit G p = false -> expr_of G p = Some (ERange e) -> t = pre ++ s ->
  ep Par (IE p) s (Some (post, vs)) evs ->
  exists mid vs', s = mid ++ post /\ matches G (ford_ext X) (IE e) s (Some post)
    /\ vs = VRange (length (enc pre)) (length (enc (pre ++ mid))) :: vs' /\ (is_unit G e = true -> vs' = []).
Proof.
  intros Up Ep Et B. pose proof (ep_suffix (se_ext HR) B (ex_intro _ pre Et)) as [mid Em].
  assert (M : exists vs' e', ep Par (IE e) s (Some (post, vs')) e' /\ vs = VRange (off t s) (off t post) :: vs').
  { inversion B; subst; cbn [active] in *; same_expr; try congruence. eauto. }
  destruct M as (vs' & e' & M & ->). exists mid, vs'. split; [exact Em|]. split; [exact (ep_ok_forget M)|]. split.
  - rewrite (off_pre Et). rewrite (off_pre (pre := pre ++ mid)); [reflexivity|]. rewrite <- app_assoc. congruence.
  - intros Ue. exact (proj2 (unit_silent Ue M) _ _ eq_refl).
Qed.
Theorem span_anywhere p e pre s post vs evs : is_unit G p = false -> expr_of G p = Some (ESpan e) -> t = pre ++ s ->
  ep Par (IE p) s (Some (post, vs)) evs ->
  exists mid vs' evs', s = mid ++ post /\ ep Par (IE e) s (Some (post, vs')) evs'
    /\ vs = VSpan (N.of_nat (length (enc pre)) mod 2 ^ 32) (N.of_nat (length (enc (pre ++ mid))) mod 2 ^ 32) :: vs'.
Proof.
  intros Up Ep Et B. pose proof (ep_suffix (se_ext HR) B (ex_intro _ pre Et)) as [mid Em].
  assert (M : exists vs' e', ep Par (IE e) s (Some (post, vs')) e' /\ vs = VSpan (u32_of (off t s)) (u32_of (off t post)) :: vs').
  { inversion B; subst; cbn [active] in *; same_expr; try congruence. eauto. }
  destruct M as (vs' & e' & M & ->). exists mid, vs', e'. split; [exact Em|]. split; [exact M|].
  rewrite (off_pre Et). rewrite (off_pre (pre := pre ++ mid)); [reflexivity|]. rewrite <- app_assoc. congruence.
Qed.

(** A rule [e > f]. *)
Theorem action_value id rl e b f st log :
  parsers_ok G -> find_rule G id = Some rl -> returns G xf Par id t st log ->
  is_unit G (rexpr rl) = false -> expr_of G (rexpr rl) = Some (EAct e b f) -> unit_variant f (is_unit G e) = false ->
  exists r evs, ep Par (IE e) t r evs /\
    match r with
    | Some (_, args) => log = action_trace evs ++ [(f, args)] /\ data st = Some (if b then VBox (VAct f args) else VAct f args)
    | None => log = action_trace evs /\ is_failed st = true
    end.
Proof.
  intros HP F R U E UV. destruct (run_outcome HR (m := Par) HP F R) as (r & evs & H & L & _ & _ & K).
  inversion H; subst; cbn [active] in *; same_expr; try congruence.
  - do 2 eexists. split; [eassumption|]. cbn beta iota. destruct K as (_ & _ & Da). unfold act_events in *. rewrite UV in *. rewrite acts_app.
    split; [reflexivity|]. rewrite Da. unfold act_value. rewrite UV. reflexivity.
  - do 2 eexists. split; [eassumption|]. cbn beta iota. split; [reflexivity|apply K].
Qed.

Lemma recognizer_log id rl st log : find_rule G id = Some rl -> returns G xf Rec id t st log -> log = [].
Proof.
  intros F R. destruct (run_outcome HR (m := Rec) I F R) as (r & evs & H & -> & _). apply silent_acts. exact (proj1 (rec_silent (se_sane HR) H)).
Qed.
Lemma unit_rule_log id rl st log : parsers_ok G -> find_rule G id = Some rl -> is_unit G (rexpr rl) = true ->
  returns G xf Par id t st log -> log = [] /\ (is_failed st = false -> data st = Some VUnit).
Proof.
  intros HP F U R. destruct (run_outcome HR (m := Par) HP F R) as (r & evs & H & -> & _ & _ & K).
  destruct (unit_silent U H) as [A B]. split; [exact A|]. intros Ok. destruct r as [[rest vs]|]; [|destruct K as [K _]; congruence].
  destruct K as (_ & _ & Da). rewrite (B _ _ eq_refl) in Da. exact Da.
Qed.
End Values.
