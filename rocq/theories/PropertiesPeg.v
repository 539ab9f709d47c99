(** Property theorems about generated recognizers and parsers (C07-C20, C26).

    Vocabulary (all small, none of it mentions the compiler's internals):
    - [ready G X xf t] (PegRun.v): [G] is a grammar arena accepted by the well-formedness analysis,
      [t] a Rust string, external functions [xf] behave as [X] says, return, and consume on success;
    - [mode_ok G m]: nothing for recognizers; for parsers, the module type checks as far as arities
      and names go (what rustc checks);
    - [returns G xf m id t st log] (Running.v): calling [recognize_id] / [parse_id] of the generated
      module on a fresh state over [t] returns [st], having called the actions [log];
    - [matches], [ep] (PegSpec.v): Ford's semantics, and the same with values and events. *)
From Verif Require Import Base Utf8 Stream ParseState RuntimeFacts Grammar PegSpec Target Compile TargetFacts ScopeFacts
  CompileShape EvalRules CompileCorrect ScopeGen GenTotal PegFacts Running WellFormed WfFacts WfSound PegRun SumGrammar Behave Values.
Set Implicit Arguments. Unset Strict Implicit.
Open Scope string_scope. Open Scope nat_scope. Open Scope list_scope.

Section Statements.
Variables (G : grammar) (X : extern) (xf : mode -> list string -> pst -> outcome (pst * alog)) (t : text).
Notation matches := (matches G (ford_ext X)).

(** C07. *)
Theorem C07_into_result : ready G X xf t -> forall m id rl st log, mode_ok G m -> find_rule G id = Some rl ->
  returns G xf m id t st log ->
  ((exists v, into_result st = Ret (PSuccess v)) <-> matches (IE (rexpr rl)) t (Some []))
  /\ ((exists v e, into_result st = Ret (PPartial v e)) <-> exists c rest, matches (IE (rexpr rl)) t (Some (c :: rest)))
  /\ ((exists e, into_result st = Ret (PFailure _ e)) <-> matches (IE (rexpr rl)) t None)
  /\ into_result st <> Panic.
Proof. intros HR m id rl st log HM F R. exact (classification HR HM F R). Qed.

(** C08: whatever the fuel, the run has not crashed nor met a meaningless operation. *)
Theorem C08_no_assertion : ready G X xf t -> forall m id rl, mode_ok G m -> find_rule G id = Some rl ->
  forall fuel, run_fn (gen_prog G) xf fuel m id (start t) <> Crash /\ run_fn (gen_prog G) xf fuel m id (start t) <> Stuck.
Proof.
  intros HR m id rl HM F fuel. destruct (run_total HR HM F) as (r & evs & st & _ & R & _).
  destruct (returns_only R fuel) as [-> | ->]; split; discriminate.
Qed.

(** C09. *)
Theorem C09_peg_semantics : ready G X xf t -> forall m id rl, mode_ok G m -> find_rule G id = Some rl ->
  exists st log, returns G xf m id t st log
    /\ (forall rest, succeeded t st rest <-> matches (IE (rexpr rl)) t (Some rest))
    /\ (is_failed st = true <-> matches (IE (rexpr rl)) t None).
Proof.
  intros HR m id rl HM F. destruct (run_total HR HM F) as (r & evs & st & _ & R & _). exists st, (acts evs). split; [exact R|].
  split; [intros rest; exact (success_iff HR HM F R rest)|exact (failure_iff HR HM F R)].
Qed.

(** C09 without the acceptance of the analysis: when Ford's semantics gives an answer, so does the
    recognizer, and it is that one. *)
Theorem C09_any_grammar : setting G X xf t -> forall id rl r, find_rule G id = Some rl ->
  matches (IE (rexpr rl)) t r ->
  exists st, returns G xf Rec id t st [] /\
    match r with Some rest => succeeded t st rest | None => is_failed st = true end.
Proof.
  intros HS id rl r F M. destruct (matches_ep (off t) M) as (r' & evs & E & <-).
  destruct (runs HS (m := Rec) I F E) as (st & R & Fi). exists st. split.
  - replace (@nil (action * list value)) with (acts evs); [exact R|]. apply silent_acts. exact (proj1 (rec_silent (se_sane HS) E)).
  - destruct r' as [[rest vs]|]; cbn in Fi |- *; [|destruct Fi as [cur ->]; reflexivity]. subst st.
    apply strm_succeeded. exact (ep_suffix1 (se_ext HS) E (suffix_all t)).
Qed.

(** C10. *)
Theorem C10_modes_agree : ready G X xf t -> forall id rl stR logR stP logP, parsers_ok G -> find_rule G id = Some rl ->
  returns G xf Rec id t stR logR -> returns G xf Par id t stP logP ->
  is_failed stP = is_failed stR /\ farthest_read stP = farthest_read stR /\ expected stP = expected stR
  /\ (forall rest, succeeded t stP rest <-> succeeded t stR rest).
Proof. intros HR id rl stR logR stP logP HP F R1 R2. exact (modes_same HR HP F R1 R2). Qed.

(** C11: the value is the one the specification [ep] gives, and there is exactly one. *)
Theorem C11_value : ready G X xf t -> forall id rl, parsers_ok G -> find_rule G id = Some rl ->
  exists st log, returns G xf Par id t st log /\
    ((is_failed st = true /\ exists evs, ep G X (off t) Par (IE (rexpr rl)) t None evs)
     \/ exists rest vs evs, ep G X (off t) Par (IE (rexpr rl)) t (Some (rest, vs)) evs
          /\ succeeded t st rest /\ data st = Some (tup vs)).
Proof.
  intros HR id rl HP F. destruct (run_total HR (m := Par) HP F) as (r & evs & st & E & R & Fi). exists st, (acts evs). split; [exact R|].
  destruct (run_outcome HR (m := Par) HP F R) as (r' & evs' & E' & _ & _ & _ & K). destruct (ep_det (se_sane HR) E E') as [<- <-].
  destruct r as [[rest vs]|]; [right; exists rest, vs, evs; tauto|left]. split; [apply K|eauto].
Qed.
Theorem C11_value_unique : ready G X xf t -> forall m it s r1 e1 r2 e2,
  ep G X (off t) m it s r1 e1 -> ep G X (off t) m it s r2 e2 -> r1 = r2 /\ e1 = e2.
Proof. intros HR m it s r1 e1 r2 e2 A B. exact (ep_det (se_sane HR) A B). Qed.

(** C12. *)
Theorem C12_recognizers_call_no_action : ready G X xf t -> forall id rl st log, find_rule G id = Some rl ->
  returns G xf Rec id t st log -> log = [].
Proof. intros HR id rl st log F R. exact (recognizer_log HR F R). Qed.
Theorem C12_actions_of_the_run : ready G X xf t -> forall m id rl st log, mode_ok G m -> find_rule G id = Some rl ->
  returns G xf m id t st log -> exists r evs, ep G X (off t) m (IE (rexpr rl)) t r evs /\ log = action_trace evs.
Proof. intros HR m id rl st log HM F R. destruct (run_outcome HR HM F R) as (r & evs & E & L & _). eauto. Qed.
Theorem C12_unit_is_silent : ready G X xf t -> forall id rl st log, parsers_ok G -> find_rule G id = Some rl ->
  is_unit G (rexpr rl) = true -> returns G xf Par id t st log -> log = [] /\ (is_failed st = false -> data st = Some VUnit).
Proof. intros HR id rl st log HP F U R. exact (unit_rule_log HR HP F U R). Qed.
Theorem C12_unit_expr_is_silent : ready G X xf t -> forall i s r evs, is_unit G i = true -> ep G X (off t) Par (IE i) s r evs ->
  action_trace evs = [] /\ (forall s1 vs, r = Some (s1, vs) -> vs = []).
Proof. intros HR i s r evs U H. exact (unit_silent HR U H). Qed.
Theorem C12_action_after_operands : ready G X xf t -> forall id rl e b f st log,
  parsers_ok G -> find_rule G id = Some rl -> returns G xf Par id t st log ->
  is_unit G (rexpr rl) = false -> expr_of G (rexpr rl) = Some (EAct e b f) -> unit_variant f (is_unit G e) = false ->
  exists r evs, ep G X (off t) Par (IE e) t r evs /\
    match r with
    | Some (_, args) => log = action_trace evs ++ [(f, args)] /\ data st = Some (if b then VBox (VAct f args) else VAct f args)
    | None => log = action_trace evs /\ is_failed st = true
    end.
Proof. intros HR id rl e b f st log HP F R U E V. exact (action_value HR HP F R U E V). Qed.

(** C13: a predicate anywhere in a sequence. *)
Theorem C13_and_predicate : ready G X xf t -> forall m id rl st log l1 p l2 e, mode_ok G m -> find_rule G id = Some rl ->
  returns G xf m id t st log -> expr_of G (rexpr rl) = Some (ESeq (l1 ++ p :: l2)) -> expr_of G p = Some (EAnd e) ->
  forall rest, succeeded t st rest <->
    exists s, matches (ISeq l1) t (Some s) /\ (exists s', matches (IE e) s (Some s')) /\ matches (ISeq l2) s (Some rest).
Proof.
  intros HR m id rl st log l1 p l2 e HM F R E Ep rest. rewrite (success_iff HR HM F R), (seq_mid _ _ _ E). split.
  - intros (s1 & s2 & A & B & C). apply (and_ok X _ _ Ep) in B. destruct B as [-> B]. eauto.
  - intros (s & A & B & C). exists s, s. split; [exact A|]. split; [apply (and_ok X _ _ Ep); auto|exact C].
Qed.
Theorem C13_not_predicate : ready G X xf t -> forall m id rl st log l1 p l2 e, mode_ok G m -> find_rule G id = Some rl ->
  returns G xf m id t st log -> expr_of G (rexpr rl) = Some (ESeq (l1 ++ p :: l2)) -> expr_of G p = Some (ENot e) ->
  forall rest, succeeded t st rest <->
    exists s, matches (ISeq l1) t (Some s) /\ matches (IE e) s None /\ matches (ISeq l2) s (Some rest).
Proof.
  intros HR m id rl st log l1 p l2 e HM F R E Ep rest. rewrite (success_iff HR HM F R), (seq_mid _ _ _ E). split.
  - intros (s1 & s2 & A & B & C). apply (not_ok X _ _ Ep) in B. destruct B as [-> B]. eauto.
  - intros (s & A & B & C). exists s, s. split; [exact A|]. split; [apply (not_ok X _ _ Ep); auto|exact C].
Qed.

(** C14: a repetition anywhere in a sequence: as many iterations as possible. *)
Theorem C14_star_greedy : ready G X xf t -> forall m id rl st log l1 p l2 e, mode_ok G m -> find_rule G id = Some rl ->
  returns G xf m id t st log -> expr_of G (rexpr rl) = Some (ESeq (l1 ++ p :: l2)) -> expr_of G p = Some (EStar e) ->
  forall rest, succeeded t st rest <->
    exists s s' n, matches (ISeq l1) t (Some s) /\ iterates (matches (IE e)) n s s' /\ matches (IE e) s' None
      /\ matches (ISeq l2) s' (Some rest).
Proof.
  intros HR m id rl st log l1 p l2 e HM F R E Ep rest. rewrite (success_iff HR HM F R), (seq_mid _ _ _ E). split.
  - intros (s1 & s2 & A & B & C). apply (star_ok X _ _ Ep) in B. destruct B as [[n B] D]. eauto 10.
  - intros (s & s' & n & A & B & D & C). exists s, s'. split; [exact A|]. split; [apply (star_ok X _ _ Ep); eauto|exact C].
Qed.
Theorem C14_plus_greedy : ready G X xf t -> forall m id rl st log l1 p l2 e, mode_ok G m -> find_rule G id = Some rl ->
  returns G xf m id t st log -> expr_of G (rexpr rl) = Some (ESeq (l1 ++ p :: l2)) -> expr_of G p = Some (EPlus e) ->
  forall rest, succeeded t st rest <->
    exists s s' n, matches (ISeq l1) t (Some s) /\ iterates (matches (IE e)) (S n) s s' /\ matches (IE e) s' None
      /\ matches (ISeq l2) s' (Some rest).
Proof.
  intros HR m id rl st log l1 p l2 e HM F R E Ep rest. rewrite (success_iff HR HM F R), (seq_mid _ _ _ E). split.
  - intros (s1 & s2 & A & B & C). apply (plus_ok X _ _ Ep) in B. destruct B as [[n B] D]. eauto 10.
  - intros (s & s' & n & A & B & D & C). exists s, s'. split; [exact A|]. split; [apply (plus_ok X _ _ Ep); eauto|exact C].
Qed.
Theorem C14_plus_needs_one : ready G X xf t -> forall m id rl st log e, mode_ok G m -> find_rule G id = Some rl ->
  returns G xf m id t st log -> expr_of G (rexpr rl) = Some (EPlus e) -> (is_failed st = true <-> matches (IE e) t None).
Proof. intros HR m id rl st log e HM F R E. rewrite (failure_iff HR HM F R). exact (plus_no X _ E). Qed.

(** C15: the branch taken depends on the branches only; what follows runs after that one. *)
Theorem C15_first_matching_branch : ready G X xf t -> forall m id rl st log l1 p l2 bs, mode_ok G m -> find_rule G id = Some rl ->
  returns G xf m id t st log -> expr_of G (rexpr rl) = Some (ESeq (l1 ++ p :: l2)) -> expr_of G p = Some (EAlt bs) ->
  forall rest, succeeded t st rest <->
    exists s s' b1 b b2, matches (ISeq l1) t (Some s) /\ bs = b1 ++ b :: b2 /\ Forall (fun j => matches (IE j) s None) b1
      /\ matches (IE b) s (Some s') /\ matches (ISeq l2) s' (Some rest).
Proof.
  intros HR m id rl st log l1 p l2 bs HM F R E Ep rest. rewrite (success_iff HR HM F R), (seq_mid _ _ _ E). split.
  - intros (s1 & s2 & A & B & C). apply (alt_ok X _ _ Ep) in B. destruct B as (b1 & b & b2 & B1 & B2 & B3). exists s1, s2, b1, b, b2. auto 10.
  - intros (s & s' & b1 & b & b2 & A & B1 & B2 & B3 & C). exists s, s'. split; [exact A|]. split; [apply (alt_ok X _ _ Ep); eauto 10|exact C].
Qed.
Theorem C15_choice_fails_iff_all_fail : ready G X xf t -> forall m id rl st log bs, mode_ok G m -> find_rule G id = Some rl ->
  returns G xf m id t st log -> expr_of G (rexpr rl) = Some (EAlt bs) ->
  (is_failed st = true <-> Forall (fun j => matches (IE j) t None) bs).
Proof. intros HR m id rl st log bs HM F R E. rewrite (failure_iff HR HM F R). exact (alt_no X _ E). Qed.

(** C16: after a failed option, what follows starts where the option started. (For branches and
    repetition bodies this is the position [s] / [s'] in C15 and C14.) *)
Theorem C16_optional_restores : ready G X xf t -> forall m id rl st log l1 p l2 e, mode_ok G m -> find_rule G id = Some rl ->
  returns G xf m id t st log -> expr_of G (rexpr rl) = Some (ESeq (l1 ++ p :: l2)) -> expr_of G p = Some (EOpt e) ->
  forall rest, succeeded t st rest <->
    exists s s', matches (ISeq l1) t (Some s) /\ (matches (IE e) s (Some s') \/ (matches (IE e) s None /\ s' = s))
      /\ matches (ISeq l2) s' (Some rest).
Proof.
  intros HR m id rl st log l1 p l2 e HM F R E Ep rest. rewrite (success_iff HR HM F R), (seq_mid _ _ _ E). split.
  - intros (s1 & s2 & A & B & C). apply (opt_ok X _ _ Ep) in B. eauto 10.
  - intros (s & s' & A & B & C). exists s, s'. split; [exact A|]. split; [apply (opt_ok X _ _ Ep); exact B|exact C].
Qed.

(** C17. *)
Theorem C17_farthest_failure : ready G X xf t -> forall m id rl st log, mode_ok G m -> find_rule G id = Some rl ->
  returns G xf m id t st log ->
  exists r evs, ep G X (off t) m (IE (rexpr rl)) t r evs
    /\ bytes_offset (farthest_read st) = farthest_of 0 (error_trace t evs)
    /\ expected st = messages_at (farthest_of 0 (error_trace t evs)) (error_trace t evs).
Proof. intros HR m id rl st log HM F R. exact (errors_reported HR HM F R). Qed.
Theorem C17_errors_in_result : forall (st : pst) v e, into_result st = Ret (PPartial v e) \/ into_result st = Ret (PFailure _ e) ->
  exp_items e = expected st /\ exp_at e = farthest_read st.
Proof.
  intros st v e. unfold into_result. destruct (data st) as [d|]; [destruct (has_next (current st))|destruct (failed st)];
    intros [H|H]; try discriminate H; injection H; intros; subst; auto.
Qed.

(** C18, for rules that use no [!e] and external rules that explain their failures. *)
Theorem C18_failure_explained_partial : ready G X xf t -> forall m id rl st log, mode_ok G m -> find_rule G id = Some rl ->
  returns G xf m id t st log ->
  (forall i e, uses G (rexpr rl) i -> expr_of G i <> Some (ENot e)) ->
  (forall m p s evs, X m p s None evs -> exists q msg, In (EvErr q msg) evs) ->
  is_failed st = true -> expected st <> [].
Proof. intros HR m id rl st log HM F R A B C. exact (failure_explained HR HM F R A B C). Qed.

(** C19. *)
Theorem C19_range_delimits : ready G X xf t -> forall id rl l1 p l2 e st log,
  parsers_ok G -> find_rule G id = Some rl -> returns G xf Par id t st log ->
  is_unit G (rexpr rl) = false -> expr_of G (rexpr rl) = Some (ESeq (l1 ++ p :: l2)) ->
  Forall (fun i => is_unit G i = true) l1 -> Forall (fun i => is_unit G i = true) l2 ->
  is_unit G p = false -> expr_of G p = Some (ERange e) -> is_unit G e = true -> is_failed st = false ->
  exists pre mid post rest, t = pre ++ mid ++ post /\ matches (ISeq l1) t (Some (mid ++ post))
    /\ matches (IE e) (mid ++ post) (Some post) /\ matches (ISeq l2) post (Some rest)
    /\ data st = Some (VRange (length (enc pre)) (length (enc (pre ++ mid)))).
Proof. intros HR id rl l1 p l2 e st log HP F R U E U1 U2 Up Ep Ue Ok. exact (range_value HR HP F R eq_refl U E U1 U2 Up Ep Ue Ok). Qed.
Theorem C19_span_delimits : ready G X xf t -> forall id rl l1 p l2 e st log,
  parsers_ok G -> find_rule G id = Some rl -> returns G xf Par id t st log ->
  is_unit G (rexpr rl) = false -> expr_of G (rexpr rl) = Some (ESeq (l1 ++ p :: l2)) ->
  Forall (fun i => is_unit G i = true) l1 -> Forall (fun i => is_unit G i = true) l2 ->
  is_unit G p = false -> expr_of G p = Some (ESpan e) -> is_failed st = false ->
  exists pre mid post rest vs evs, t = pre ++ mid ++ post /\ matches (ISeq l1) t (Some (mid ++ post))
    /\ ep G X (off t) Par (IE e) (mid ++ post) (Some (post, vs)) evs /\ matches (ISeq l2) post (Some rest)
    /\ data st = Some (tup (VSpan (N.of_nat (length (enc pre)) mod 2 ^ 32) (N.of_nat (length (enc (pre ++ mid))) mod 2 ^ 32) :: vs)).
Proof. intros HR id rl l1 p l2 e st log HP F R U E U1 U2 Up Ep Ok. exact (span_value HR HP F R eq_refl U E U1 U2 Up Ep Ok). Qed.

(** The same wherever the range or the span is: in the semantics with values that the parsers follow (C11). *)
Theorem C19_range_anywhere : ready G X xf t -> forall p e pre s post vs evs,
  is_unit G p = false -> expr_of G p = Some (ERange e) -> t = pre ++ s ->
  ep G X (off t) Par (IE p) s (Some (post, vs)) evs ->
  exists mid vs', s = mid ++ post /\ matches (IE e) s (Some post)
    /\ vs = VRange (length (enc pre)) (length (enc (pre ++ mid))) :: vs' /\ (is_unit G e = true -> vs' = []).
Proof. intros HR p e pre s post vs evs Up Ep Et B. exact (range_anywhere HR Up Ep Et B). Qed.
Theorem C19_span_anywhere : ready G X xf t -> forall p e pre s post vs evs,
  is_unit G p = false -> expr_of G p = Some (ESpan e) -> t = pre ++ s ->
  ep G X (off t) Par (IE p) s (Some (post, vs)) evs ->
  exists mid vs' evs', s = mid ++ post /\ ep G X (off t) Par (IE e) s (Some (post, vs')) evs'
    /\ vs = VSpan (N.of_nat (length (enc pre)) mod 2 ^ 32) (N.of_nat (length (enc (pre ++ mid))) mod 2 ^ 32) :: vs'.
Proof. intros HR p e pre s post vs evs Up Ep Et B. exact (span_anywhere HR Up Ep Et B). Qed.

(** C20: accepted grammars terminate, on every text. *)
Theorem C20_termination : ready G X xf t -> forall m id rl, mode_ok G m -> find_rule G id = Some rl ->
  exists fuel st log, forall n, fuel <= n -> run_fn (gen_prog G) xf n m id (start t) = Done (st, log).
Proof.
  intros HR m id rl HM F. destruct (run_total HR HM F) as (r & evs & st & _ & [k R] & _).
  exists k, st, (acts evs). intros n L. exact (run_fn_mono L R).
Qed.

(** C26. *)
Theorem C26_class_condition : forall cls k c, compile_condition cls = COk k -> (eval_cond k c = true <-> in_class c cls).
Proof. intros cls k c H. apply eval_condition_class, H. Qed.
Theorem C26_class_compiles : forall cls, cls <> [] <-> exists k, compile_condition cls = COk k.
Proof.
  intros [|i r]; split; cbn; [congruence|intros [k H]; discriminate|intros _; eauto|discriminate].
Qed.
End Statements.

(** ---------------- concrete cases ---------------- *)
(** "1+23" with the grammar [sum] of SumGrammar.v: all hypotheses hold, and here is the run. *)
Definition t_sum : text := [49; 43; 50; 51]%N.
Definition number (cs : list N) : value := VAct (ActPath ["number"]) [VVec (map VChar cs)].

Example sum_hypotheses : ready sumG noX noxf t_sum /\ mode_ok sumG Rec /\ mode_ok sumG Par
  /\ find_rule sumG "sum" = Some (mkRule "sum" 8).
Proof. split; [apply sum_ready; reflexivity|]. split; [exact I|]. split; [exact sum_parsers|reflexivity]. Qed.

Example sum_parse : exists st, returns sumG noxf Par "sum" t_sum st
    [(ActPath ["number"], [VVec [VChar 49%N]]); (ActPath ["number"], [VVec [VChar 50%N; VChar 51%N]])]
  /\ into_result st = Ret (PSuccess (VTuple [number [49%N]; VVec [number [50; 51]%N]]))
  /\ succeeded t_sum st [] /\ bytes_offset (farthest_read st) = 4
  /\ expected st = [class_desc [(48, 57)%N]; [43%N]].
Proof.
  eexists. split; [exists 200; vm_compute; reflexivity|]. split; [reflexivity|]. split; [|split; reflexivity].
  split; [reflexivity|]. exists t_sum. split; reflexivity.
Qed.
Example sum_recognize : exists st, returns sumG noxf Rec "sum" t_sum st [] /\ succeeded t_sum st [].
Proof.
  eexists. split; [exists 200; vm_compute; reflexivity|]. split; [reflexivity|]. exists t_sum. split; reflexivity.
Qed.
(** "1+x": the repetition gives the [+] back. *)
Example sum_partial : exists st, returns sumG noxf Rec "sum" [49; 43; 120]%N st [] /\ succeeded [49; 43; 120]%N st [43; 120]%N
  /\ bytes_offset (farthest_read st) = 2 /\ expected st = [class_desc [(48, 57)%N]].
Proof.
  eexists. split; [exists 200; vm_compute; reflexivity|]. split; [|split; reflexivity].
  split; [reflexivity|]. exists [49%N]. split; reflexivity.
Qed.
(** "x" fails and says so. *)
Example sum_failure : exists st, returns sumG noxf Par "sum" [120]%N st [] /\ is_failed st = true /\ expected st = [class_desc [(48, 57)%N]]
  /\ (forall i e, uses sumG 8 i -> expr_of sumG i <> Some (ENot e))
  /\ (forall m p s evs, noX m p s None evs -> exists q msg, In (EvErr q msg) evs).
Proof.
  eexists. split; [exists 200; vm_compute; reflexivity|]. split; [reflexivity|]. split; [reflexivity|]. split.
  - intros i e _ E. apply nth_error_In in E. cbn in E. intuition discriminate.
  - intros m p s evs [_ ->]. eexists. eexists. left. reflexivity.
Qed.

(** A grammar with every operator that C13-C16 and C19 speak about:
      p  = &"a" "a"* !"c" ("b" / "bb")? .            (unit typed as a whole except the final dot)
      rg = "<" ... "a"+ ">"
      sp = "<" .. . ">" *)
Definition opsG : grammar := mkG
  [mkRule "p" 12; mkRule "rg" 17; mkRule "sp" 20]
  [EStr [97%N]; EAnd 0; EStr [97%N]; EStar 2; EStr [99%N]; ENot 4; EStr [98%N]; EStr [98; 98]%N; EAlt [6; 7]; EOpt 8; EPlus 2; EAny;
   ESeq [1; 3; 5; 9; 11];
   EStr [60%N]; EAsc 10 (IRegular TUnit); ERange 14; EStr [62%N]; ESeq [13; 15; 16];
   EAny; ESpan 18; ESeq [13; 19; 16]]
  [TUnit; TUnit; TUnit; TUnit; TUnit; TUnit; TUnit; TUnit; TUnit; TUnit; TUnit; TAtom;
   TAtom;
   TUnit; TUnit; TRust "Range"; TUnit; TRust "Range";
   TAtom; TTuple [19; 18]; TTuple [19; 18]].
Lemma ops_ready t : forallb is_scalar t = true -> ready opsG noX noxf t.
Proof. intros H. apply ready_of; [reflexivity|reflexivity|exact H|]. exists 50, 20. vm_compute. reflexivity. Qed.
Lemma ops_parsers : parsers_ok opsG.
Proof. apply parsers_okb_ok; [apply coherentb_ok|]; vm_compute; reflexivity. Qed.
(** "aabbx": the star takes both a's, the choice commits to "b", so the dot reads the second b. *)
Example ops_p : exists st, returns opsG noxf Par "p" [97; 97; 98; 98; 120]%N st [] /\ succeeded [97; 97; 98; 98; 120]%N st [120%N]
  /\ data st = Some (VChar 98%N).
Proof.
  eexists. split; [exists 200; vm_compute; reflexivity|]. split; [|reflexivity].
  split; [reflexivity|]. exists [97; 97; 98; 98]%N. split; reflexivity.
Qed.
(** "aac": the negative predicate fails. *)
Example ops_p_fail : exists st, returns opsG noxf Par "p" [97; 97; 99]%N st [] /\ is_failed st = true.
Proof. eexists. split; [exists 200; vm_compute; reflexivity|reflexivity]. Qed.
Example C19_range_case : exists st, returns opsG noxf Par "rg" [60; 97; 97; 62]%N st [] /\ is_failed st = false
  /\ data st = Some (VRange 1 3)
  /\ expr_of opsG 17 = Some (ESeq ([13] ++ 15 :: [16])) /\ expr_of opsG 15 = Some (ERange 14)
  /\ Forall (fun i => is_unit opsG i = true) [13] /\ Forall (fun i => is_unit opsG i = true) [16]
  /\ is_unit opsG 15 = false /\ is_unit opsG 14 = true.
Proof. eexists. split; [exists 200; vm_compute; reflexivity|]. repeat split; repeat constructor. Qed.
Example C19_span_case : exists st, returns opsG noxf Par "sp" [60; 233; 62]%N st [] /\ is_failed st = false
  /\ data st = Some (VTuple [VSpan 1 3; VChar 233])
  /\ expr_of opsG 20 = Some (ESeq ([13] ++ 19 :: [16])) /\ expr_of opsG 19 = Some (ESpan 18).
Proof. eexists. split; [exists 200; vm_compute; reflexivity|]. repeat split. Qed.

(** C18 is false in general: [r = !"a"] on "a" fails and expects nothing. *)
Definition notG : grammar := mkG [mkRule "r" 1] [EStr [97%N]; ENot 0] [TUnit; TUnit].
Theorem C18_failure_explained_refuted : exists G t st id, ready G noX noxf t /\ returns G noxf Rec id t st []
  /\ is_failed st = true /\ expected st = [].
Proof.
  exists notG, [97%N]. eexists. exists "r". split.
  - apply ready_of; [reflexivity|reflexivity|reflexivity|]. exists 50, 20. vm_compute. reflexivity.
  - split; [exists 50; vm_compute; reflexivity|]. split; reflexivity.
Qed.
Example C26_case : exists k, compile_condition [(97, 122)%N; (95, 95)%N] = COk k /\ eval_cond k 95%N = true /\ eval_cond k 65%N = false.
Proof. eexists. split; [reflexivity|split; reflexivity]. Qed.

Print Assumptions C07_into_result.
Print Assumptions C08_no_assertion.
Print Assumptions C09_peg_semantics.
Print Assumptions C09_any_grammar.
Print Assumptions C10_modes_agree.
Print Assumptions C11_value.
Print Assumptions C11_value_unique.
Print Assumptions C12_recognizers_call_no_action.
Print Assumptions C12_actions_of_the_run.
Print Assumptions C12_unit_is_silent.
Print Assumptions C12_unit_expr_is_silent.
Print Assumptions C12_action_after_operands.
Print Assumptions C13_and_predicate.
Print Assumptions C13_not_predicate.
Print Assumptions C14_star_greedy.
Print Assumptions C14_plus_greedy.
Print Assumptions C14_plus_needs_one.
Print Assumptions C15_first_matching_branch.
Print Assumptions C15_choice_fails_iff_all_fail.
Print Assumptions C16_optional_restores.
Print Assumptions C17_farthest_failure.
Print Assumptions C17_errors_in_result.
Print Assumptions C18_failure_explained_partial.
Print Assumptions C19_range_delimits.
Print Assumptions C19_span_delimits.
Print Assumptions C19_range_anywhere.
Print Assumptions C19_span_anywhere.
Print Assumptions C20_termination.
Print Assumptions C26_class_condition.
Print Assumptions C26_class_compiles.
Print Assumptions C18_failure_explained_refuted.
