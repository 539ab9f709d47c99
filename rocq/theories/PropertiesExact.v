(** Where properties that are false of the code in general hold: exact conditions (C04, C18, C37, C39).

    - [location_spec], [reachable] (Stream.v, RuntimeFacts.v): line and column of a read prefix; the streams a user can build;
    - [tep] (TreeValues.v): the semantics of the documented syntax; its events [EvErr p msg] are the failures of terminals;
    - [requested] (PropertiesAnalysis.v): the most verbose level asked by the attributes. *)
From Coq Require Import Ascii Permutation Lia.
From Verif Require Import Base Utf8 Stream ParseState RuntimeFacts Grammar PegSpec Target Compile TargetFacts ScopeFacts
  CompileShape EvalRules CompileCorrect ScopeGen GenTotal PegFacts Running WellFormed WfFacts WfSound WfSyntax WfTerm WfFuel PegRun Behave Values CharClass
  Analysis AnalysisFacts PropertiesWf PropertiesPeg PropertiesAnalysis Typing TypeRules SurfaceFacts RefFacts DepthFacts TypingSound TypingFit GenAgree TypingTop TypingVerdict
  PropertiesTyping SumGrammar Front FrontFacts FrontSpec FrontSound FrontRound FrontGrammar PropertiesFront Agree TreeSpec TreeFacts Literals Pipeline MiddleFuel PropertiesMain RType Oak OakFacts PropertiesOak TreeWf PropertiesVerdict TreeValues TreeEp PropertiesSource
  LocationExact.
Set Implicit Arguments. Unset Strict Implicit.
Open Scope string_scope. Open Scope nat_scope. Open Scope list_scope.

(** ---------------- C04 ---------------- *)
(** The location is right exactly until the first carriage return that ends a line (one before a line feed or at the end of the
    text) has been read. *)
Theorem C04_location_exact : forall (t : text) (s : StrStream) (pre post : text), scalars t -> reachable t s ->
  t = pre ++ post -> bytes_offset s = length (enc pre) ->
  (location_spec pre (fst (line_column s)) (snd (line_column s)) <->
   ~ exists a c, t = a ++ 13%N :: c /\ (c = [] \/ exists d, c = 10%N :: d) /\ length a < length pre).
Proof.
  intros t s pre post Ht R E O. rewrite (location_exact Ht R E O). split.
  - intros H (a & c & Et & En & L). specialize (H a c Et En). lia.
  - intros H a c Et En. destruct (le_lt_dec (length pre) (length a)) as [L | L]; [exact L|]. exfalso. eauto 8.
Qed.
(** Before the carriage return the location is right although one follows; just after it, it is not. *)
Example C04_exact_case : let t := [97; 13; 10; 98]%N in
  line_column (mkStr (enc t) 1) = (1, 2) /\ reachable t (mkStr (enc t) 1) /\
  line_column (mkStr (enc t) 2) = (2, 1) /\ reachable t (mkStr (enc t) 2).
Proof.
  cbv zeta. split; [reflexivity|]. split; [|split; [reflexivity|]].
  - apply (@reach_prefix _ (str_stream [97; 13; 10; 98]%N) [97]%N true); [constructor|repeat constructor|reflexivity].
  - apply (@reach_prefix _ (str_stream [97; 13; 10; 98]%N) [97; 13]%N true); [constructor|repeat constructor|reflexivity].
Qed.

(** ---------------- C39 ---------------- *)
(** The registered line starts are right exactly when no CRLF is followed by more text. *)
Theorem C39_line_starts_exact : forall (t : text) (start : nat), scalars t ->
  ((forall x, In x (register_lines start (enc t)) <-> exists p, x = start + p /\ is_line_start (enc t) p) <->
   ~ exists a c, t = a ++ 13%N :: 10%N :: c /\ c <> []).
Proof.
  intros t start Hs. rewrite (starts_exact start Hs). split.
  - intros H (a & c & E & Ne). apply Ne, (H a c E).
  - intros H a c E. destruct c as [|x c]; [reflexivity|]. exfalso. apply H. exists a, (x :: c). split; [exact E|discriminate].
Qed.
Example C39_exact_case : register_lines 0 (enc [97; 10; 98; 13; 10]%N) = [0; 2] /\ register_lines 0 (enc [97; 13; 10; 98]%N) = [0; 2].
Proof. split; reflexivity. Qed.

(** ---------------- C37 ---------------- *)
(** Sequences of typing attributes ([true] for debug_typing) after which the level is back to nothing. *)
Inductive cancels : list bool -> Prop :=
| ca_nil : cancels []
| ca_show_twice l : cancels l -> cancels (false :: false :: l)
| ca_debug_any d l : cancels l -> cancels (true :: d :: l)
| ca_show_debug_any d l : cancels l -> cancels (false :: true :: d :: l).

Notation level_after := (fold_left (fun l (d : bool) => merge l (if d then LDebug else LShow))).
Lemma cancels_level l : cancels l -> forall r, level_after (l ++ r) LNothing = level_after r LNothing.
Proof. induction 1; intros r; cbn; auto; destruct d; apply IHcancels. Qed.
Lemma level_parts n : forall l, length l <= n -> exists a b, l = a ++ b /\ cancels a /\ In b [[]; [false]; [true]; [false; true]].
Proof.
  induction n as [|n IH]; intros l L.
  - destruct l; [|simpl in L; lia]. exists [], []. split; [reflexivity|]. split; [constructor|left; reflexivity].
  - assert (T : forall a, cancels a -> forall m, l = a ++ m -> length m <= n -> (forall x, cancels x -> cancels (a ++ x)) ->
       exists a b, l = a ++ b /\ cancels a /\ In b [[]; [false]; [true]; [false; true]]).
    { intros a Ca m -> Lm Ext. destruct (IH m Lm) as (a' & b & -> & Ca' & Ib). exists (a ++ a'), b. rewrite app_assoc. auto. }
    destruct l as [|x [|y [|z l]]].
    + exists [], []. split; [reflexivity|]. split; [constructor|left; reflexivity].
    + exists [], [x]. split; [reflexivity|]. split; [constructor|]. destruct x; simpl; auto.
    + destruct x; [|destruct y].
      * apply (T [true; y]) with (m := []); [constructor; constructor|reflexivity|simpl; lia|intros; constructor; assumption].
      * exists [], [false; true]. split; [reflexivity|]. split; [constructor|simpl; auto].
      * apply (T [false; false]) with (m := []); [constructor; constructor|reflexivity|simpl; lia|intros; constructor; assumption].
    + simpl in L. destruct x; [|destruct y].
      * apply (T [true; y]) with (m := z :: l); [constructor; constructor|reflexivity|simpl; lia|intros; constructor; assumption].
      * apply (T [false; true; z]) with (m := l); [constructor; constructor|reflexivity|lia|intros; constructor; assumption].
      * apply (T [false; false]) with (m := z :: l); [constructor; constructor|reflexivity|simpl; lia|intros; constructor; assumption].
Qed.
(** The level is the one requested exactly when no typing attribute is given; or an odd number of show_typing and no debug_typing; or
    attributes that cancel each other, and then debug_typing, or show_typing and debug_typing. *)
Theorem C37_levels_exact : forall attrs, merge_attrs LNothing attrs = requested attrs <->
  typing_attrs attrs = [] \/
  (exists k, typing_attrs attrs = repeat false (2 * k + 1)) \/
  (exists l, cancels l /\ (typing_attrs attrs = l ++ [true] \/ typing_attrs attrs = l ++ [false; true])).
Proof.
  intros attrs. rewrite merge_attrs_typing. unfold requested. rewrite asks_debug, asks_show.
  generalize (typing_attrs attrs) as ds. clear attrs. intros ds. split.
  - intros H. destruct (level_parts (le_n (length ds))) as (a & b & -> & Ca & Ib).
    rewrite (cancels_level Ca) in H. rewrite !List.existsb_app in H.
    destruct Ib as [<- | [<- | [<- | [<- | []]]]].
    + (* back to nothing: right only if nothing was asked *)
      left. cbn [existsb fold_left] in H. rewrite !orb_false_r in H. destruct (existsb (fun d => d) a) eqn:Q; [discriminate|].
      destruct (existsb negb a) eqn:Q2; [discriminate|]. destruct a as [|[] a]; [reflexivity|discriminate|discriminate].
    + right. left. cbn [existsb fold_left merge] in H. rewrite !orb_false_r in H. destruct (existsb (fun d => d) a) eqn:Q; [discriminate|]. clear H.
      induction Ca as [|l Cl IH|d l Cl IH|d l Cl IH]; [exists 0; reflexivity| |discriminate|discriminate].
      destruct IH as (k & E); [exact Q|]. exists (S k). replace (2 * S k + 1) with (S (S (2 * k + 1))) by lia.
      cbn [app repeat]. f_equal. f_equal. exact E.
    + right. right. eauto.
    + right. right. eauto.
  - intros [-> | [(k & ->) | (l & Cl & [-> | ->])]].
    + reflexivity.
    + replace (existsb (fun d => d) (repeat false (2 * k + 1))) with false.
      * induction k as [|k IH]; [reflexivity|]. replace (2 * S k + 1) with (S (S (2 * k + 1))) by lia.
        cbn [repeat fold_left merge]. rewrite IH. cbn [existsb negb orb]. replace (2 * k + 1) with (S (2 * k)) by lia. reflexivity.
      * symmetry. generalize (2 * k + 1) as n. induction n as [|n IH]; [reflexivity|exact IH].
    + rewrite (cancels_level Cl), List.existsb_app. cbn. rewrite orb_true_r. reflexivity.
    + rewrite (cancels_level Cl), List.existsb_app. cbn. rewrite orb_true_r. reflexivity.
Qed.
(** The level given: nothing exactly when the attributes cancel. *)
Theorem C37_levels_nothing : forall attrs, merge_attrs LNothing attrs = LNothing <-> cancels (typing_attrs attrs).
Proof.
  intros attrs. rewrite merge_attrs_typing. generalize (typing_attrs attrs) as ds. clear attrs. intros ds. split.
  - intros H. destruct (level_parts (le_n (length ds))) as (a & b & -> & Ca & Ib).
    rewrite (cancels_level Ca) in H. destruct Ib as [<- | [<- | [<- | [<- | []]]]]; try discriminate H. rewrite app_nil_r. exact Ca.
  - intros C. rewrite <- (app_nil_r ds), (cancels_level C). reflexivity.
Qed.
Example C37_exact_case : let a := [["show_typing"]; ["show_typing"]; ["other"]; ["debug_typing"]] in
  merge_attrs LNothing a = LDebug /\ cancels [false; false] /\ typing_attrs a = [false; false] ++ [true] /\
  cancels (typing_attrs [["debug_typing"]; ["show_typing"]]).
Proof. repeat split; try reflexivity; repeat constructor. Qed.

(** ---------------- C18 ---------------- *)
Lemma no_messages (errs : list (nat * list N)) : messages_at (farthest_of 0 errs) errs = [] <-> errs = [].
Proof.
  split; [|intros ->; reflexivity]. intros H.
  destruct (farthest_of_max 0 errs) as (_ & _ & [Z | (e & I0 & E)]).
  - destruct errs as [|[o q] errs]; [reflexivity|]. exfalso. rewrite Z in H.
    destruct (farthest_of_max 0 ((o, q) :: errs)) as (Le & _). specialize (Le (o, q) (or_introl eq_refl)). rewrite Z in Le. simpl in Le.
    assert (o = 0) by lia. subst o. discriminate.
  - exfalso. unfold messages_at in H. apply map_eq_nil in H.
    assert (In e (filter (fun x => fst x =? farthest_of 0 errs) errs)) as K by (apply filter_In; split; [exact I0|apply Nat.eqb_eq, E]).
    rewrite H in K. destruct K.
Qed.
Lemma no_errors t evs : error_trace t evs = [] <-> ~ exists p msg, In (EvErr p msg) evs.
Proof.
  unfold error_trace. induction evs as [|e evs IH]; [split; [intros _ (p & q & []) | reflexivity]|]. cbn [flat_map]. destruct e as [p q|a b].
  - split; [discriminate|]. intros H. exfalso. apply H. exists p, q. left. reflexivity.
  - cbn [app]. rewrite IH. split; intros H (p & q & K); apply H; exists p, q; [destruct K as [K | K]; [discriminate|exact K]|right; exact K].
Qed.
(** What a recognizer or parser reports is empty exactly when no terminal failed during the run. *)
Theorem C18_silence_exact : forall G X xf t, ready G X xf t -> forall m id rl st log, mode_ok G m -> find_rule G id = Some rl ->
  returns G xf m id t st log -> forall r evs, ep G X (off t) m (IE (rexpr rl)) t r evs ->
  (expected st = [] <-> ~ exists p msg, In (EvErr p msg) evs).
Proof.
  intros G X xf t HR m id rl st log HM F R r evs EP.
  destruct (C17_farthest_failure HR HM F R) as (r' & evs' & EP' & _ & E).
  destruct (ep_det (se_sane HR) EP EP') as [-> ->]. rewrite E, no_messages. apply no_errors.
Qed.
(** The same on the source: a recognizer of the generated module expects nothing exactly when no terminal of the source fails. *)
Theorem C18_silence_source : forall rust_type rust_item return_type generics, reads rust_type -> reads rust_item ->
  forall fuel ts m, oak rust_type rust_item return_type generics fuel ts = WOk (Some m) -> toks_strs scalars ts ->
  forall attrs bs, read_as rust_type rust_item ts attrs bs ->
  forall X xf t, outside X xf t -> forall n e, In (n, e) (block_rules bs) ->
    exists st r evs, called m xf Rec n t st [] /\ tep (block_rules bs) X (off t) (fun _ => False) Rec (TE e) t r evs /\
      (is_failed st = true <-> r = None) /\
      (expected st = [] <-> ~ exists p msg, In (EvErr p msg) evs).
Proof.
  intros rt ri ret gen RT RI fuel ts m H LT attrs bs RD X xf t O n e I0.
  destruct (C56_recognizer_errors RT RI H LT RD O I0) as (st & r & evs & C & U & [_ R2] & K).
  exists st, r, evs. split; [exact C|]. split; [apply U; auto|]. split.
  - destruct r as [[rest vs]|]; [|split; auto]. destruct K as [K _]. unfold is_successful in K; split; [intros Q; rewrite Q in K; discriminate K|discriminate].
  - rewrite R2, no_messages. apply no_errors.
Qed.
(** ["r = !\"a\""] on ["a"] fails and no terminal does: the hypotheses are those of C18_failure_explained_refuted. *)
Example C18_exact_case : forall X off, exists evs, ep notG X off Rec (IE 1) [97%N] None evs /\ ~ exists p msg, In (EvErr p msg) evs.
Proof.
  intros X off. exists []. split; [|intros (p & q & [])].
  eapply ep_not_fail; [reflexivity|]. apply (@ep_str_ok notG X off Rec 0 [97%N] []); [exact I|reflexivity].
Qed.

Print Assumptions C04_location_exact.
Print Assumptions C39_line_starts_exact.
Print Assumptions C37_levels_exact.
Print Assumptions C37_levels_nothing.
Print Assumptions C18_silence_exact.
Print Assumptions C18_silence_source.
