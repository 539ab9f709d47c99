(** Running the functions generated from an accepted grammar. *)
From Verif Require Import Base Utf8 Stream ParseState RuntimeFacts Grammar PegSpec Target Compile TargetFacts ScopeFacts
  CompileShape EvalRules CompileCorrect ScopeGen GenTotal PegFacts Running WellFormed WfFacts WfSound.
Set Implicit Arguments. Unset Strict Implicit.

(** A grammar accepted by the analysis, a text, and external rules that behave. *)
Record ready (G : grammar) (X : extern) xf (t : text) : Prop := {
  rd_setting :> setting G X xf t;
  rd_accepted : accepted G;
  rd_ext : ext_consuming (ford_ext X)
}.

(** The stream has read [pre] of [t]. *)
Definition stands (t pre : text) (s : StrStream) : Prop := s = mkStr (enc t) (length (enc pre)).

Section PegRun.
Variables (G : grammar) (X : extern) (xf : mode -> list string -> pst -> outcome (pst * alog)) (t : text).
Hypothesis HR : ready G X xf t.
Notation matches := (matches G (ford_ext X)).

Lemma cert : exists W, wf_cert G W.
Proof. apply accepted_cert; [exact (ar_choice (se_arena HR))|exact (rd_accepted HR)]. Qed.

Lemma ford_total i s : in_rules G i -> exists r, matches (IE i) s r.
Proof.
  destruct cert as [W HW]. apply (peg_total HW (ec_consume (rd_ext HR)) (ec_total (rd_ext HR)) (ar_children (se_arena HR))).
Qed.

Lemma ep_total m i s : mode_ok G m -> in_rules G i -> exists r evs, ep G X (off t) m (IE i) s r evs.
Proof.
  intros HM Hi. destruct (ford_total s Hi) as [r M]. destruct (matches_ep (off t) M) as (r' & evs & H & _).
  destruct m; [eauto|]. destruct HM as [HC _]. destruct (rec_par (se_sane HR) HC H) as (r2 & evs2 & K & _). eauto.
Qed.

Lemma run_total m id rl : mode_ok G m -> find_rule G id = Some rl ->
  exists r evs st, ep G X (off t) m (IE (rexpr rl)) t r evs /\ returns G xf m id t st (acts evs) /\ final t m r evs st.
Proof.
  intros HM F. destruct (ep_total t HM (in_rules_rule F)) as (r & evs & H).
  destruct (runs HR HM F H) as (st & R & Fi). exists r, evs, st. auto.
Qed.

(** Every run is the specified one. *)
Lemma run_spec m id rl st log : mode_ok G m -> find_rule G id = Some rl -> returns G xf m id t st log ->
  exists r evs, ep G X (off t) m (IE (rexpr rl)) t r evs /\ log = acts evs /\ final t m r evs st.
Proof.
  intros HM F H. destruct (run_total HM F) as (r & evs & st' & E & R & Fi). destruct (returns_det H R) as [-> ->]. eauto.
Qed.

Lemma stands_suffix pre rest : t = pre ++ rest -> strm t rest = mkStr (enc t) (length (enc pre)).
Proof. intros E. unfold strm, off. rewrite E, enc_app, app_length. f_equal. lia. Qed.

End PegRun.
