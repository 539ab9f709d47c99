(** Property theorems about character classes and the code generator (C25, C28, C29). *)
From Verif Require Import Base Utf8 Stream ParseState RuntimeFacts Grammar PegSpec Target Compile TargetFacts ScopeFacts
  CompileShape EvalRules CompileCorrect ScopeGen GenTotal PegFacts Running WellFormed WfFacts WfSound PegRun SumGrammar CharClass.
Set Implicit Arguments. Unset Strict Implicit.
Open Scope string_scope. Open Scope nat_scope. Open Scope list_scope.

(** C25.  The documented syntax (CharClass.v): [class_text lead items trail] is an optional dash,
    then single characters and intervals without dashes, then an optional dash.
    The fuel bound is never the reason of an answer ([C25_parsing_terminates]). *)
Definition class_fuel (s : text) : nat := S (length s).
Definition documented (s : text) : Prop :=
  s <> [] /\ exists lead items trail, Forall no_dash items /\ s = class_text lead items trail.

Theorem C25_parsing_terminates : forall s, parse_char_class (class_fuel s) s <> FLoop.
Proof. exact class_total. Qed.

Theorem C25_accepted_iff_documented : forall s, (exists ivs, parse_char_class (class_fuel s) s = FOk ivs) <-> documented s.
Proof.
  intros s. split.
  - intros [ivs H]. split; [intros ->; discriminate|]. destruct (class_sound H) as (l & i & t & F & E & _). eauto 6.
  - intros (NE & lead & items & trail & F & ->). destruct (class_complete F NE) as (ivs & H & _). eauto.
Qed.

(** The set is the union of the items, whatever way the text is read. *)
Definition denotes (lead : bool) (items : list citem) (trail : bool) (c : N) : Prop :=
  ((lead = true \/ trail = true) /\ c = dash)
  \/ In (Single c) items
  \/ exists lo hi, In (Interval lo hi) items /\ (lo <= c)%N /\ (c <= hi)%N.

Lemma in_class_items lead items trail c : in_class c (class_intervals lead items trail) <-> denotes lead items trail c.
Proof.
  unfold in_class, denotes, class_intervals. split.
  - intros (lo & hi & I & A & B). apply in_app_or in I. destruct I as [I|I].
    + destruct lead; [|destruct I]. destruct I as [I|[]]. injection I as <- <-. left. split; [auto|lia].
    + apply in_app_or in I. destruct I as [I|I].
      * apply in_map_iff in I. destruct I as ([d|l h] & E & I); injection E as <- <-; [|right; right; eauto].
        right. left. replace c with d by lia. exact I.
      * destruct trail; [|destruct I]. destruct I as [I|[]]. injection I as <- <-. left. split; [auto|lia].
  - intros [[H ->]|[H|(lo & hi & I & A & B)]].
    + exists dash, dash. split; [|lia]. destruct H as [-> | ->]; apply in_or_app; [left; left; reflexivity|right; apply in_or_app; right; left; reflexivity].
    + exists c, c. split; [|lia]. apply in_or_app. right. apply in_or_app. left. apply (in_map item_interval) in H. exact H.
    + exists lo, hi. split; [|lia]. apply in_or_app. right. apply in_or_app. left. apply (in_map item_interval) in I. exact I.
Qed.

Theorem C25_class_denotation : forall lead items trail ivs c, Forall no_dash items ->
  parse_char_class (class_fuel (class_text lead items trail)) (class_text lead items trail) = FOk ivs ->
  (in_class c ivs <-> denotes lead items trail c).
Proof.
  intros lead items trail ivs c F H. assert (NE : class_text lead items trail <> []) by (intros E; rewrite E in H; discriminate).
  destruct (class_complete F NE) as (ivs' & H' & K). unfold class_fuel in H. rewrite H in H'. injection H' as <-.
  rewrite K. apply in_class_items.
Qed.

(** With the code generator: a class that parses compiles, and the generated test accepts exactly the
    documented set. *)
Theorem C25_class_end_to_end : forall lead items trail, Forall no_dash items -> class_text lead items trail <> [] ->
  exists ivs k, parse_char_class (class_fuel (class_text lead items trail)) (class_text lead items trail) = FOk ivs
    /\ compile_condition ivs = COk k /\ forall c, eval_cond k c = true <-> denotes lead items trail c.
Proof.
  intros lead items trail F NE. destruct (class_complete F NE) as (ivs & H & K). pose proof (class_nonempty H) as Hn.
  destruct ivs as [|i r]; [contradiction|]. cbn [compile_condition]. exists (i :: r). eexists. split; [exact H|]. split; [reflexivity|].
  intros c. rewrite (@eval_condition_class c (i :: r)); [|reflexivity]. rewrite K. apply in_class_items.
Qed.

(** Concrete cases: ["-a-z_-"], the rejected ["a--"], and the reversed interval ["z-a"], accepted and empty. *)
Example C25_case : documented [45; 97; 45; 122; 95; 45]%N
  /\ parse_char_class 7 [45; 97; 45; 122; 95; 45]%N = FOk [(45, 45); (97, 122); (95, 95); (45, 45)]%N.
Proof.
  split; [|reflexivity]. split; [discriminate|]. exists true, [Interval 97 122; Single 95]%N, true.
  split; [|reflexivity]. repeat constructor; discriminate.
Qed.
Example C25_case_rejected : parse_char_class 4 [97; 45; 45]%N = FErr /\ ~ documented [97; 45; 45]%N.
Proof.
  split; [reflexivity|]. intros H. apply C25_accepted_iff_documented in H. destruct H as [ivs H]. discriminate H.
Qed.
Example C25_case_reversed : exists ivs, parse_char_class 4 [122; 45; 97]%N = FOk ivs /\ forall c, ~ in_class c ivs.
Proof. eexists. split; [reflexivity|]. intros c (lo & hi & [I|[]] & A & B). injection I as <- <-. lia. Qed.

(** C28.  Recognizers: always.  Parsers: when no data-building action with a choice below it is nested
    where variables of its rule are pending ([rule_act_safe], ScopeGen.v). *)
Theorem C28_recognizer_names_bound : forall G rl f, gen_recognizer G rl = COk f -> no_unbound_name f.
Proof. exact recognizer_scoped. Qed.
Theorem C28_parser_names_bound_partial : forall G rl f,
  coherent G -> rule_act_safe G rl = true -> gen_parser G rl = COk f -> no_unbound_name f.
Proof. exact parser_scoped. Qed.

(** [r = ("a" ("x" / "y") "z" > f) / ("b" > g)]: the continuation "z" of the inner choice becomes a
    closure outside the function's scope, and mentions the branch flag of the outer choice. *)
Definition leakG : grammar := mkG [mkRule "r" 9]
  [EStr [97%N]; EStr [120%N]; EStr [121%N]; EAlt [1; 2]; EStr [122%N]; ESeq [0; 3; 4]; EAct 5 false (ActPath ["f"]);
   EStr [98%N]; EAct 7 false (ActPath ["g"]); EAlt [6; 8]]
  [TUnit; TUnit; TUnit; TUnit; TUnit; TUnit; TRust "T"; TUnit; TRust "T"; TRust "T"].
Theorem C28_parser_names_bound_refuted : ~ forall G rl f, coherent G -> arena_ok G -> accepted G -> In rl (rules G) ->
  gen_parser G rl = COk f -> no_unbound_name f.
Proof.
  intros H. specialize (H leakG (mkRule "r" 9)).
  destruct (gen_parser leakG (mkRule "r" 9)) as [f|] eqn:E; [|vm_compute in E; discriminate].
  specialize (H f). destruct H as (T & _ & _).
  - apply coherentb_ok. vm_compute. reflexivity.
  - apply arena_okb_ok. vm_compute. reflexivity.
  - exists 50, 20. vm_compute. reflexivity.
  - left. reflexivity.
  - reflexivity.
  - apply table_ok_scoped in T. vm_compute in E. injection E as <-. vm_compute in T. discriminate.
Qed.
Example C28_case : coherent sumG /\ forallb (rule_act_safe sumG) (rules sumG) = true /\ exists f, gen_parser sumG (mkRule "sum" 8) = COk f.
Proof. split; [apply sum_parsers|]. split; [vm_compute; reflexivity|]. eexists. vm_compute. reflexivity. Qed.

Print Assumptions C25_parsing_terminates.
Print Assumptions C25_accepted_iff_documented.
Print Assumptions C25_class_denotation.
Print Assumptions C25_class_end_to_end.
Print Assumptions C28_recognizer_names_bound.
Print Assumptions C28_parser_names_bound_partial.
Print Assumptions C28_parser_names_bound_refuted.
