(** Running the generated functions from the outside, on a whole text. *)
From Verif Require Import Base Utf8 Stream ParseState RuntimeFacts Grammar PegSpec Target Compile TargetFacts ScopeFacts
  CompileShape EvalRules CompileCorrect ScopeGen GenTotal PegFacts.
Set Implicit Arguments. Unset Strict Implicit.

(** [recognize_id(text.into_state())] ([m = Rec]) or [parse_id(text.into_state())] ([m = Par]) of the
    module generated for [G]; [log] lists the calls of semantic actions. *)
Definition start (t : text) : pst := ps_new (str_stream t).
Definition returns (G : grammar) xf (m : mode) (id : string) (t : text) (st : pst) (log : alog) : Prop :=
  exists fuel, run_fn (gen_prog G) xf fuel m id (start t) = Done (st, log).

Lemma run_fn_mono prog xf k n m id st r : k <= n -> run_fn prog xf k m id st = Done r -> run_fn prog xf n m id st = Done r.
Proof.
  intros L H. unfold run_fn in *. destruct (prog m id) as [f|]; [|discriminate].
  destruct (@eval_mono prog xf k n (fclosures f) (fbody f) st [] L) as [K|K]; [rewrite K in H; discriminate|]. rewrite <- K. exact H.
Qed.

(** The hypotheses common to all theorems about generated code.
    - [G] comes from the front end (indices, literals);
    - [t] is a Rust string;
    - external functions [xf] behave as [X] describes. *)
Record setting (G : grammar) (X : extern) xf (t : text) : Prop := {
  se_arena : arena_ok G;
  se_lits : lits_ok G;
  se_text : scalars t;
  se_ext : ext_ok X xf t;
  se_sane : ext_sane X
}.
(** The generated parsers are accepted by rustc as far as names go, and types fit expressions. *)
Definition parsers_ok (G : grammar) : Prop :=
  coherent G /\ forall rl f, In rl (rules G) -> gen_parser G rl = COk f -> no_unbound_name f.
Definition mode_ok (G : grammar) (m : mode) : Prop := match m with Rec => True | Par => parsers_ok G end.

Lemma find_rule_in G id rl : find_rule G id = Some rl -> In rl (rules G) /\ rname rl = id.
Proof.
  unfold find_rule. intros H. apply find_some in H. destruct H as [H E]. apply String.eqb_eq in E. auto.
Qed.

Section Run.
Variables (G : grammar) (X : extern) (xf : mode -> list string -> pst -> outcome (pst * alog)) (t : text).
Hypothesis HS : setting G X xf t.

Lemma funs_rec : funs_ok G Rec.
Proof.
  intros id rl F. apply find_rule_in in F. destruct F as [F _]. destruct (recognizer_total (se_arena HS) F) as [f E].
  exists f. split; [exact E|]. apply table_ok_scoped, (recognizer_scoped E).
Qed.
Lemma prog_ok_mode m : mode_ok G m -> prog_ok G m.
Proof.
  destruct m; simpl; [intros _; apply funs_rec|]. intros [HC HN]. split; [apply funs_rec|]. split; [|exact HC].
  intros id rl F. apply find_rule_in in F. destruct F as [F _]. destruct (parser_total (se_arena HS) HC F) as [f E].
  exists f. split; [exact E|]. apply table_ok_scoped, (HN rl f F E).
Qed.

Lemma start_run : start t = run_at t t (str_stream t, []).
Proof. unfold start, run_at, ps_new, strm, off, str_stream. rewrite Nat.sub_diag. reflexivity. Qed.

Lemma calls_returns m id st log : calls (gen_prog G) xf m (Local id) (start t) (st, log) -> returns G xf m id t st log.
Proof.
  intros (f & e' & P & n & E). exists n. unfold run_fn. rewrite P. cbn [fst snd] in E. rewrite E. reflexivity.
Qed.
Lemma returns_det m id s1 l1 s2 l2 : returns G xf m id t s1 l1 -> returns G xf m id t s2 l2 -> s1 = s2 /\ l1 = l2.
Proof.
  intros [n1 H1] [n2 H2]. unfold run_fn in *. destruct (gen_prog G m id) as [f|]; [|discriminate].
  destruct (eval (gen_prog G) xf n1 _ _ _ _) as [[[a b] c]| | |] eqn:E1; try discriminate.
  destruct (eval (gen_prog G) xf n2 _ _ _ _) as [[[a' b'] c']| | |] eqn:E2; try discriminate.
  cbn in H1, H2. injection H1; intros <- <-. injection H2; intros <- <-.
  assert (K : (a, b, c) = (a', b', c')) by (eapply evals_det; [exists n1; exact E1|exists n2; exact E2]).
  injection K; auto.
Qed.
(** With enough fuel the result is always that one; with less the model has not finished. *)
Lemma returns_only m id st l : returns G xf m id t st l -> forall n,
  run_fn (gen_prog G) xf n m id (start t) = Done (st, l) \/ run_fn (gen_prog G) xf n m id (start t) = Timeout.
Proof.
  intros [n1 H1] n. unfold run_fn in *. destruct (gen_prog G m id) as [f|]; [|discriminate].
  destruct (eval (gen_prog G) xf n1 _ _ _ _) as [[[a b] c]| | |] eqn:E1; try discriminate.
  cbn in H1. injection H1; intros <- <-.
  destruct (@evals_only _ _ _ _ _ _ _ (ex_intro _ n1 E1) n) as [K|K]; rewrite K; [right|left]; reflexivity.
Qed.

(** The error record after the events. *)
Definition errors_of (evs : list event) := recd t (str_stream t, []) evs.

Lemma suffix_all : suffix t t.
Proof. exists []. reflexivity. Qed.

(** The state returned when the specification gives [r] with events [evs]. *)
Definition final (m : mode) (r : option (text * list value)) (evs : list event) (st : pst) : Prop :=
  match r with
  | Some (rest, vs) => st = success (run_at t rest (errors_of evs)) (tup vs)
  | None => exists cur, st = fail_at cur (errors_of evs)
  end.

Lemma ep_unit_inv i s r evs : ep G X (off t) Par (IE i) s r evs -> is_unit G i = true -> ep G X (off t) Rec (IE i) s r evs.
Proof. intros H U. inversion H; subst; cbn [active] in *; try congruence; assumption. Qed.

Theorem runs m id rl r evs : mode_ok G m -> find_rule G id = Some rl ->
  ep G X (off t) m (IE (rexpr rl)) t r evs ->
  exists st, returns G xf m id t st (acts evs) /\ final m r evs st.
Proof.
  intros HM F H. pose proof (prog_ok_mode HM) as HP.
  assert (Rc : forall r evs, ep G X (off t) Rec (IE (rexpr rl)) t r evs ->
    exists st, calls (gen_prog G) xf Rec (Local id) (start t) (st, acts evs) /\ final m r evs st).
  { intros r0 evs0 H0. pose proof (correct_code (se_text HS) (se_ext HS) (se_lits HS) H0) as K.
    pose proof (fun_rec F suffix_all funs_rec K (str_stream t, [])) as C. rewrite <- start_run in C.
    unfold final, errors_of. destruct r0 as [[rest vs]|].
    - destruct C as [-> C]. eexists. split; [exact C|reflexivity].
    - destruct C as [cur C]. eexists. split; [exact C|]. exists cur. reflexivity. }
  destruct m.
  - destruct (Rc _ _ H) as (st & C & Fi). exists st. split; [apply calls_returns, C|exact Fi].
  - destruct (is_unit G (rexpr rl)) eqn:U.
    + destruct (Rc _ _ (ep_unit_inv H U)) as (st & C & Fi). exists st. split; [|exact Fi].
      apply calls_returns. pose proof (find_rule_in F) as [_ N].
      exists (mkFunc [] (CTail (rname rl))), []. split.
      * unfold gen_prog. rewrite F. simpl. unfold gen_parser. unfold is_unit in U. destruct (ty_of G (rexpr rl)) as [ty|]; [|discriminate].
        rewrite U. reflexivity.
      * cbn [fclosures fbody fst snd]. apply ev_tail. rewrite N. exact C.
    + pose proof (correct_code (se_text HS) (se_ext HS) (se_lits HS) H) as K.
      pose proof (fun_par F suffix_all HP U K (str_stream t, [])) as C. rewrite <- start_run in C.
      unfold final, errors_of. destruct r as [[rest vs]|].
      * destruct C as [_ C]. eexists. split; [apply calls_returns, C|reflexivity].
      * destruct C as [cur C]. eexists. split; [apply calls_returns, C|]. exists cur. reflexivity.
Qed.
End Run.
