(** Property theorems about the other analyses of the middle end (C30, C31, C35, C36, C37, C41, C43).

    The models are in Analysis.v.  [declared rs id]: a rule of [rs] is named [id]; [used rs es i]: the
    expression [i] is part of the definition of a rule; [subseq]: obtained by removing elements;
    [wraps G j k]: [k] is found from [j] through actions, ascriptions, spans, ranges and rule calls only;
    [rewritten G i e]: the grammar where expression [i] is replaced by [e].  (AnalysisFacts.v, ChainFacts.v.) *)
From Verif Require Import Base Grammar PegSpec PegFacts WellFormed WfFacts WfSound WfSyntax WfTerm WfFuel Analysis AnalysisFacts ChainFacts.
From Coq Require Import Relations Permutation.
Set Implicit Arguments. Unset Strict Implicit.
Open Scope string_scope. Open Scope nat_scope. Open Scope list_scope.

(** ---------------- C30 ---------------- *)
(** A definition survives iff it is the first of its name, and an error is signalled iff two share a name. *)
Record keeps_firsts (A : Type) (name : A -> string) (items kept : list A) : Prop := {
  kf_order : subseq kept items;
  kf_distinct : NoDup (map name kept);
  kf_first : forall k, In k kept -> exists l1 l2, items = l1 ++ k :: l2 /\ ~ In (name k) (map name l1);
  kf_cover : forall a, In a items -> In (name a) (map name kept)
}.
Lemma firsts_keeps A (name : A -> string) items : keeps_firsts name items (firsts name items []).
Proof.
  split.
  - apply firsts_subseq.
  - apply firsts_nodup.
  - apply firsts_first.
  - intros a I1. destruct (@firsts_cover _ name items [] a I1) as [[]|H]. exact H.
Qed.
Lemma repeats_nodup A (name : A -> string) items : repeats name items [] = false <-> NoDup (map name items).
Proof. rewrite repeats_false. cbn. firstorder. Qed.

Theorem C30_rules : forall g rs,
  (NoDup (map rname rs) -> rule_duplicate g rs = Value (with_rules g rs)) /\
  (~ NoDup (map rname rs) -> exists kept, rule_duplicate g rs = Fake (with_rules g kept) /\ keeps_firsts rname rs kept).
Proof.
  intros g rs. unfold rule_duplicate. rewrite dup_analyse_eq. split; intros H.
  - apply repeats_nodup in H. rewrite H. cbn. rewrite snd_tagged, (firsts_all H). reflexivity.
  - destruct (repeats rname rs []) eqn:E; [|exfalso; apply H, repeats_nodup, E]. exists (firsts rname rs []). split; [|apply firsts_keeps].
    cbn. rewrite snd_tagged. reflexivity.
Qed.
(** The Rust items: functions in order, and the rest in order. *)
Theorem C30_functions : forall g items,
  let fns := flat_map (fun it => match it with RFn n s => [(n, s)] | _ => [] end) items in
  let rest := filter (fun it => match it with RFn _ _ => false | _ => true end) items in
  (NoDup (map fst fns) -> rust_functions_duplicate g items = Value (with_rust g fns rest)) /\
  (~ NoDup (map fst fns) -> exists kept, rust_functions_duplicate g items = Fake (with_rust g kept rest) /\ keeps_firsts fst fns kept).
Proof.
  intros g items fns rest. unfold rust_functions_duplicate. rewrite dup_analyse_eq. fold fn_of. change (flat_map fn_of items) with fns. split; intros H.
  - apply repeats_nodup in H. rewrite H. cbn. rewrite snd_tagged, (firsts_all H). reflexivity.
  - destruct (repeats fst fns []) eqn:E; [|exfalso; apply H, repeats_nodup, E]. exists (firsts fst fns []). split; [|apply firsts_keeps].
    cbn. rewrite snd_tagged. reflexivity.
Qed.

(** ---------------- C31 ---------------- *)
Record arena (rs : list rule) (es : list expr) : Prop := {
  ar_below : forall i e, nth_error es i = Some e -> Forall (fun j => j < i) (children e);
  ar_roots : forall r, In r rs -> rexpr r < length es
}.
Lemma nth_error_ext A (l1 : list A) : forall l2, (forall n, nth_error l1 n = nth_error l2 n) -> l1 = l2.
Proof.
  induction l1 as [|a l1 IH]; intros [|b l2] H; [reflexivity|specialize (H 0); discriminate|specialize (H 0); discriminate|].
  pose proof (H 0) as H0. cbn in H0. injection H0 as <-. f_equal. apply IH. intros n. exact (H (S n)).
Qed.
Theorem C31_resolution : forall rs es, arena rs es -> exists es',
  (forall fuel, length es <= fuel -> resolve fuel rs es = WOk es') /\ length es' = length es /\
  forall i e, nth_error es i = Some e ->
    (forall id, e = EExt [id] -> declared rs id -> used rs es i -> nth_error es' i = Some (ENT id)) /\
    ((~ exists id, e = EExt [id] /\ declared rs id) \/ ~ used rs es i -> nth_error es' i = Some e).
Proof.
  intros rs es [O Hr]. destruct (@resolve_ok rs (length es) es O Hr (le_n _)) as (es0 & E0 & R0). exists es0. split; [|split; [apply R0|]].
  - intros fuel L. destruct (@resolve_ok rs fuel es O Hr L) as (es' & E & R). rewrite E. f_equal.
    apply nth_error_ext. intros n. destruct (Nat.lt_ge_cases n (length es)) as [Ln|Ln].
    + destruct R0 as (L0 & A0 & B0), R as (L1 & A1 & B1).
      destruct (B0 n) as [Q0|[D0 Q0]].
      * destruct (B1 n) as [Q1|[D1 Q1]]; [congruence|]. rewrite Q1, (A0 n D1). reflexivity.
      * rewrite (A1 n D0), Q0. reflexivity.
    + destruct R0 as (L0 & _), R as (L1 & _). rewrite !(proj2 (nth_error_None _ _)) by lia. reflexivity.
  - destruct R0 as (L0 & A0 & B0). intros i e E. split.
    + intros id -> D U. rewrite (A0 i U), E. cbn. apply declared_b in D. rewrite D. reflexivity.
    + intros [N|N].
      * destruct (B0 i) as [Q|[_ Q]]; rewrite Q, E; [reflexivity|]. cbn. f_equal. destruct e; try reflexivity. destruct p as [|id [|]]; try reflexivity.
        cbn. destruct (existsb (fun r => String.eqb (rname r) id) rs) eqn:Z; [|reflexivity]. exfalso. apply N. exists id. split; [reflexivity|]. apply declared_b, Z.
      * destruct (B0 i) as [Q|[D _]]; [rewrite Q; exact E|contradiction].
Qed.
(** The front end only produces external calls; after resolution every lookup of a rule succeeds. *)
Theorem C31_lookups_succeed : forall rs es fuel es', arena rs es -> (forall i id, nth_error es i <> Some (ENT id)) ->
  length es <= fuel -> resolve fuel rs es = WOk es' ->
  forall i id ts, nth_error es' i = Some (ENT id) -> exists rl, find_rule (mkG rs es' ts) id = Some rl /\ rname rl = id.
Proof.
  intros rs es fuel es' [O Hr] NE L H i id ts E. destruct (@resolve_ok rs fuel es O Hr L) as (es0 & E0 & (_ & _ & B)). assert (es0 = es') as -> by congruence.
  destruct (B i) as [Q|[_ Q]]; rewrite E in Q; [exfalso; exact (NE i id (eq_sym Q))|].
  destruct (nth_error es i) as [e|] eqn:Ee; [|discriminate]. cbn in Q. injection Q as Q.
  destruct e; try discriminate Q; [cbn in Q; injection Q as <-; exfalso; eapply NE; exact Ee|].
  destruct p as [|id' [|]]; try discriminate Q. cbn in Q. destruct (existsb (fun r => String.eqb (rname r) id') rs) eqn:Z; [|discriminate Q]. injection Q as <-.
  unfold find_rule. cbn [rules]. destruct (find (fun r => String.eqb (rname r) id) rs) as [rl|] eqn:F.
  - exists rl. split; [reflexivity|]. apply find_some in F. apply String.eqb_eq, F.
  - exfalso. apply existsb_exists in Z. destruct Z as (r & I1 & Z). apply (find_none _ _ F) in I1. congruence.
Qed.

(** ---------------- C35 ---------------- *)
(** A grammar that passed the analysis; [chaining] ran and returned the warnings [ws]. *)
Definition warns (G : grammar) (ws : list warning) : Prop :=
  exists N, forall fuel ifuel, N <= fuel -> N <= ifuel -> chaining G fuel ifuel = WOk ws.

(** Each warning points at an operator application, and for patterns written through transparent
    operators only, following the advice keeps the language of every rule.  Not so for [(e+)*]. *)
Theorem C35_rewrites_preserve_partial : forall G ws w, analysable G -> NoDup (map rname (rules G)) -> accepted G -> warns G ws -> In w ws ->
  forall j k x ei ek e', expr_of G (w_at w) = Some ei -> op_expr (w_outer w) j = Some ei ->
  wraps G j k -> expr_of G k = Some ek -> op_expr (w_inner w) x = Some ek ->
  op_expr (w_new w) x = Some e' -> (w_outer w, w_inner w) <> (PZeroOrMore, POneOrMore) ->
  forall X rl s r, In rl (rules G) ->
    matches (rewritten G (w_at w) e') X (IE (rexpr rl)) s r <-> matches G X (IE (rexpr rl)) s r.
Proof.
  intros G ws w HG ND A (N & HC) Hw j k x ei ek e' Ei Oi W Ek Ok On NP X rl s r _.
  destruct (accepted_cert (an_choice HG) A) as [Wt HW].
  specialize (HC N N (le_n N) (le_n N)). destruct (chaining_warned HC Hw) as ((r0 & I0 & S0) & (j' & e0 & c & E0 & O0 & Inn & C)).
  assert (e0 = ei) as -> by congruence.
  eapply rewrite_language; [exact Ei|exact Oi|exact (an_children HG)|intros id; exact (@no_left_recursion _ _ HW id)|exact W|exact Ek|exact Ok|exact C| |exact On].
  intros Z. rewrite Z in *. destruct (w_inner w) eqn:Ein; cbn in C; try discriminate C; [apply NP; reflexivity|].
  (* a star under a star is rejected *)
  cbn in Oi. injection Oi as <-.
  assert (IR : in_rules G (w_at w)).
  { exists (rname r0), r0. split; [|exact S0]. clear - ND I0. unfold find_rule. induction (rules G) as [|q rs IH]; [destruct I0|]. cbn [map] in ND. inversion ND; subst. cbn [find].
    destruct I0 as [->|I1]; [rewrite String.eqb_refl; reflexivity|]. destruct (String.eqb_spec (rname q) (rname r0)) as [Eq|_]; [|auto].
    exfalso. match goal with H : ~ In _ _ |- _ => apply H; rewrite Eq; apply in_map, I1 end. }
  apply (no_empty_repeat HW IR (or_introl Ei)). cbn in Ok. injection Ok as <-. clear - W Ek.
  induction W as [q|q e p k E K W IH|q id rl k E F W IH].
  - eapply ce_star. exact Ek.
  - specialize (IH Ek). destruct K as [(b & f & ->)|[(t & ->)|[-> | ->]]]; [eapply ce_act|eapply ce_asc|eapply ce_span|eapply ce_range]; eassumption.
  - eapply ce_nt; [exact E|exact F|exact (IH Ek)].
Qed.
(** What would be right for [(e+)*]: the operator e*. *)
Theorem C35_plus_star : forall G X i j x k s r, expr_of G i = Some (EStar j) -> wraps G j k -> expr_of G k = Some (EPlus x) ->
  (matches G X (IE i) s r <-> applied (matches G X (IE x)) PZeroOrMore s r).
Proof.
  intros G X i j x k s r Ei W Ek. rewrite (@op_applied G X PZeroOrMore i j (EStar j) s r Ei eq_refl). rewrite <- (@row_sp (matches G X (IE x)) s r).
  split; apply applied_ext; intros s1 r1 H.
  - apply (wraps_matches X s1 r1 W) in H. apply (@op_applied G X POneOrMore k x (EPlus x) s1 r1 Ek eq_refl), H.
  - apply (wraps_matches X s1 r1 W). apply (@op_applied G X POneOrMore k x (EPlus x) s1 r1 Ek eq_refl), H.
Qed.
(** And silence means there is no such direct chain. *)
Theorem C35_no_warning_no_chain : forall G, warns G [] -> forall rl i j x ei ej a b n, In rl (rules G) -> sub G (rexpr rl) i ->
  expr_of G i = Some ei -> op_expr a j = Some ei -> expr_of G j = Some ej -> op_expr b x = Some ej -> check_chain a b false = Some n -> False.
Proof.
  intros G (N & H) rl i j x ei ej a b n I1 S1 Ei Oi Ej Oj C. specialize (H (S N) (S N) ltac:(lia) ltac:(lia)).
  assert (Q : inner G (S N) j = WOk (b, false)).
  { cbn [inner]. rewrite Ej. destruct b; cbn in Oj; try discriminate; injection Oj as <-; reflexivity. }
  pose proof (chaining_silent H I1 S1 Ei Oi Q) as Z. cbn in Z. congruence.
Qed.

(** First refutation: [r = ("a"+)*] is accepted and the warning proposes "a"+, which rejects the empty text. *)
Definition psG : grammar := mkG [mkRule "r" 2] [EStr [97%N]; EPlus 0; EStar 1] [].
(** No external rule. *)
Definition noX0 : extern := fun _ _ _ _ _ => False.
Definition noE : list string -> text -> option text -> Prop := ford_ext noX0.
Lemma noE_det : forall G it s r1 r2, matches G noE it s r1 -> matches G noE it s r2 -> r1 = r2.
Proof. intros G it s r1 r2 H1 H2. refine (@matches_det G noX0 _ it s r1 H1 r2 H2). split; unfold noX0; intros; contradiction. Qed.
Theorem C35_rewrites_preserve_refuted : exists G w x e' rl s, analysable G /\ accepted G /\ warns G [w] /\
  w_at w = 2 /\ expr_of G 2 = Some (EStar 1) /\ expr_of G 1 = Some (EPlus x) /\ op_expr (w_new w) x = Some e' /\ In rl (rules G) /\
  matches G noE (IE (rexpr rl)) s (Some s) /\ matches (rewritten G (w_at w) e') noE (IE (rexpr rl)) s None.
Proof.
  exists psG, (mkW 2 PZeroOrMore POneOrMore POneOrMore), 0, (EPlus 0), (mkRule "r" 2), [].
  split.
  { split.
    - intros [|[|[|i]]] e E; cbn in E; try discriminate; try (injection E as <-; cbn; repeat constructor). destruct i; discriminate.
    - intros rl [<-|[]]. cbn. lia.
    - intros [|[|[|i]]] E; cbn in E; try discriminate. destruct i; discriminate.
    - intros [|[|[|i]]] id _ E; cbn in E; try discriminate. destruct i; discriminate. }
  split; [exists 10, 10; vm_compute; reflexivity|]. split.
  { exists 3. intros fuel ifuel L1 L2. destruct fuel as [|[|[|f]]]; try lia. destruct ifuel as [|[|[|g]]]; try lia. reflexivity. }
  repeat (split; [reflexivity || (left; reflexivity)|]). split.
  - eapply m_star; [reflexivity|]. apply m_star_stop. eapply m_plus_fail; [reflexivity|]. eapply m_str_fail; [reflexivity|discriminate].
  - eapply m_plus_fail; [reflexivity|]. eapply m_str_fail; [reflexivity|discriminate].
Qed.

(** Second refutation: in a sequence only the first operand is looked at.  [r = ("a"* "b")?] gets the
    advice e*, but no expression under a star, in any grammar, has that language. *)
Definition fcG : grammar := mkG [mkRule "r" 4] [EStr [97%N]; EStar 0; EStr [98%N]; ESeq [1; 2]; EOpt 3] [].
Theorem C35_first_operand_refuted : exists G w rl, analysable G /\ accepted G /\ warns G [w] /\ In rl (rules G) /\ w_at w = rexpr rl /\ w_new w = PZeroOrMore /\
  forall G' X' i j, expr_of G' i = Some (EStar j) ->
    ~ (forall s r, matches G' X' (IE i) s r <-> matches G noE (IE (rexpr rl)) s r).
Proof.
  exists fcG, (mkW 4 POptional PZeroOrMore PZeroOrMore), (mkRule "r" 4).
  split.
  { split.
    - intros i e E. do 5 (destruct i as [|i]; [cbn in E; injection E as <-; cbn; repeat constructor|]). destruct i; discriminate.
    - intros rl [<-|[]]. cbn. lia.
    - intros i E. do 5 (destruct i as [|i]; [cbn in E; discriminate|]). destruct i; discriminate.
    - intros i id _ E. do 5 (destruct i as [|i]; [cbn in E; discriminate|]). destruct i; discriminate. }
  split; [exists 20, 10; vm_compute; reflexivity|]. split.
  { exists 6. intros fuel ifuel L1 L2. destruct fuel as [|[|[|f]]]; try lia. destruct ifuel as [|[|[|[|g]]]]; try lia. reflexivity. }
  split; [left; reflexivity|]. split; [reflexivity|]. split; [reflexivity|].
  intros G' X' i j Ei Eq.
  assert (B : forall rest, matches fcG noE (IE 4) (98%N :: rest) (Some rest)).
  { intros rest. eapply m_opt_some; [reflexivity|]. eapply m_seq; [reflexivity|].
    eapply m_seq_cons; [eapply m_star; [reflexivity|]; apply m_star_stop; eapply m_str_fail; [reflexivity|discriminate]|].
    eapply m_seq_cons; [exact (@m_str_ok fcG noE 2 [98%N] rest eq_refl)|constructor]. }
  (* on "bb" one "b" is consumed, so the body fails on "b"; but on "b" it must be consumed *)
  pose proof (proj2 (Eq [98%N; 98%N] (Some [98%N])) (B [98%N])) as H1.
  apply (@op_applied G' X' PZeroOrMore i j (EStar j) _ _ Ei eq_refl) in H1. destruct H1 as (s1 & R1 & E1). injection E1 as <-.
  apply reps_end in R1.
  assert (H2 : matches G' X' (IE i) [98%N] (Some [98%N])).
  { eapply m_star; [exact Ei|]. apply m_star_stop. exact R1. }
  apply Eq in H2. pose proof (noE_det H2 (B [])) as Z. discriminate.
Qed.

(** ---------------- C36 ---------------- *)
Theorem C36_chaining_terminates : forall G, analysable G -> NoDup (map rname (rules G)) -> accepted G -> exists ws, warns G ws.
Proof.
  intros G HG ND A. destruct (accepted_cert (an_choice HG) A) as [Wt HW]. destruct (chaining_total HG HW ND) as (N & ws & H).
  exists ws, N. exact H.
Qed.
(** Acceptance matters: on a left-recursive rule the inner traversal never answers. *)
Definition loopG : grammar := mkG [mkRule "r" 1; mkRule "s" 2] [ENT "s"; ENot 0; ENT "s"] [].
Example C36_needs_acceptance : analysable loopG /\ analysis_returns loopG false /\ forall fuel ifuel, chaining loopG fuel ifuel = WLoop.
Proof.
  split.
  { split.
    - intros i e E. do 3 (destruct i as [|i]; [cbn in E; injection E as <-; cbn; repeat constructor|]). destruct i; discriminate.
    - intros rl [<-|[<-|[]]]; cbn; lia.
    - intros i E. do 3 (destruct i as [|i]; [cbn in E; discriminate|]). destruct i; discriminate.
    - intros i id _ E. do 3 (destruct i as [|i]; [cbn in E; try discriminate; injection E as <-; eexists; reflexivity|]). destruct i; discriminate. }
  split; [exists 10, 10; vm_compute; reflexivity|]. intros fuel ifuel.
  assert (L2 : forall f, inner loopG f 2 = WLoop).
  { induction f as [|f IH]; [reflexivity|]. change (inner loopG (S f) 2) with (wbind (inner loopG f 2) (fun q => WOk (fst q, true))). rewrite IH. reflexivity. }
  assert (L0 : forall f, inner loopG f 0 = WLoop).
  { intros [|f]; [reflexivity|]. change (inner loopG (S f) 0) with (wbind (inner loopG f 2) (fun q => WOk (fst q, true))). rewrite L2. reflexivity. }
  destruct fuel as [|f]; [reflexivity|].
  unfold chaining. cbn [chaining_from rules loopG rexpr]. 
  change (outer loopG (S f) ifuel 1) with (wbind (inner loopG ifuel 0) (fun q => match check_chain PNot (fst q) (snd q) with Some new => WOk [mkW 1 PNot (fst q) new] | None => outer loopG f ifuel 0 end)).
  rewrite L0. reflexivity.
Qed.

(** ---------------- C37 ---------------- *)
(** The most verbose level requested. *)
Definition asks (id : string) (attrs : list (list string)) : bool := existsb (list_eqb String.eqb [id]) attrs.
Definition requested (attrs : list (list string)) : level :=
  if asks "debug_typing" attrs then LDebug else if asks "show_typing" attrs then LShow else LNothing.
(** The typing attributes, in order: [true] for debug_typing. *)
Definition typing_attrs (attrs : list (list string)) : list bool :=
  flat_map (fun a => if list_eqb String.eqb ["debug_typing"] a then [true] else if list_eqb String.eqb ["show_typing"] a then [false] else []) attrs.

Lemma merge_attrs_typing attrs : forall l, merge_attrs l attrs = fold_left (fun l (d : bool) => merge l (if d then LDebug else LShow)) (typing_attrs attrs) l.
Proof.
  unfold merge_attrs, typing_attrs. induction attrs as [|a attrs IH]; intros l; [reflexivity|]. cbn [fold_left flat_map]. rewrite IH, fold_left_app. f_equal.
  destruct a as [|id [|id2 rest]]; cbn [merge_attr list_eqb]; [reflexivity| |].
  - rewrite !andb_true_r, !(String.eqb_sym id). destruct (String.eqb_spec "debug_typing" id); [reflexivity|]. destruct (String.eqb "show_typing" id); reflexivity.
  - rewrite !andb_false_r. reflexivity.
Qed.
Lemma asks_debug attrs : asks "debug_typing" attrs = existsb (fun d => d) (typing_attrs attrs).
Proof.
  unfold asks, typing_attrs. induction attrs as [|a attrs IH]; [reflexivity|]. cbn [existsb flat_map]. rewrite existsb_app, IH. f_equal.
  destruct (list_eqb String.eqb ["debug_typing"] a); [reflexivity|]. destruct (list_eqb String.eqb ["show_typing"] a); reflexivity.
Qed.
Lemma asks_show attrs : asks "show_typing" attrs = existsb negb (typing_attrs attrs).
Proof.
  unfold asks, typing_attrs. induction attrs as [|a attrs IH]; [reflexivity|]. cbn [existsb flat_map]. rewrite existsb_app, IH. f_equal.
  destruct (list_eqb String.eqb ["debug_typing"] a) eqn:D; [|destruct (list_eqb String.eqb ["show_typing"] a); reflexivity].
  apply list_eqb_eq in D; [|intros; apply String.eqb_eq]. subst a. reflexivity.
Qed.
(** Right when each attribute is given at most once and show_typing comes first. *)
Theorem C37_levels_accumulate_partial : forall attrs, In (typing_attrs attrs) [[]; [false]; [true]; [false; true]] ->
  merge_attrs LNothing attrs = requested attrs.
Proof.
  intros attrs H. rewrite merge_attrs_typing. unfold requested. rewrite asks_debug, asks_show.
  destruct H as [<-|[<-|[<-|[<-|[]]]]]; reflexivity.
Qed.
(** Asking for debug twice, for show twice, or for show after debug, gives nothing; the order matters. *)
Theorem C37_levels_accumulate_refuted :
  (exists attrs, requested attrs = LDebug /\ merge_attrs LNothing attrs = LNothing) /\
  (exists attrs attrs', Permutation attrs attrs' /\ merge_attrs LNothing attrs <> merge_attrs LNothing attrs').
Proof.
  split.
  - exists [["debug_typing"]; ["show_typing"]]. split; reflexivity.
  - exists [["debug_typing"]; ["show_typing"]], [["show_typing"]; ["debug_typing"]]. split; [apply perm_swap|]. cbn. discriminate.
Qed.

(** ---------------- C41 ---------------- *)
Definition is_stream (it : rust_item) : Prop := exists src, it = RAlias "Stream" src.
Theorem C41_user_stream : forall g l1 src l2, a_items g = l1 ++ RAlias "Stream" src :: l2 -> (forall it, In it l1 -> ~ is_stream it) ->
  a_stream (extract_stream_type g) = ("Stream", src) /\ a_items (extract_stream_type g) = a_items g.
Proof.
  intros g l1 src l2 E N. unfold extract_stream_type. rewrite E.
  assert (F : find_map stream_alias_of (l1 ++ RAlias "Stream" src :: l2) = Some ("Stream", src)).
  { clear E. induction l1 as [|it l1 IH]; [reflexivity|]. cbn [app find_map]. destruct (stream_alias_of it) as [q|] eqn:Q.
    - exfalso. apply (N it); [left; reflexivity|]. destruct it; cbn in Q; try discriminate. destruct (String.eqb_spec name "Stream"); [|discriminate]. subst. eexists. reflexivity.
    - apply IH. intros it' I1. apply N. right. exact I1. }
  rewrite F. cbn. auto.
Qed.
Theorem C41_default_stream : forall g, (forall it, In it (a_items g) -> ~ is_stream it) ->
  a_stream (extract_stream_type g) = a_stream g /\
  a_items (extract_stream_type g) = a_items g ++ [RAlias (fst (a_stream g)) (snd (a_stream g))].
Proof.
  intros g N. unfold extract_stream_type. assert (F : find_map stream_alias_of (a_items g) = None).
  { induction (a_items g) as [|it l IH]; [reflexivity|]. cbn [find_map]. destruct (stream_alias_of it) as [q|] eqn:Q.
    - exfalso. apply (N it); [left; reflexivity|]. destruct it; cbn in Q; try discriminate. destruct (String.eqb_spec name "Stream"); [|discriminate]. subst. eexists. reflexivity.
    - apply IH. intros it' I1. apply N. right. exact I1. }
  rewrite F. cbn. auto.
Qed.

(** ---------------- C43: the analysis phase as a whole ---------------- *)
(** What the front end delivers. *)
Record parsed (fg : fgrammar) : Prop := {
  pa_arena : arena (f_rules fg) (f_exprs fg);
  pa_calls : forall i id, nth_error (f_exprs fg) i <> Some (ENT id);
  pa_choice : forall i, nth_error (f_exprs fg) i <> Some (EAlt [])
}.
Definition fn_names (fg : fgrammar) : list string := flat_map (fun it => match it with RFn n _ => [n] | _ => [] end) (f_items fg).

Section Pipeline.
Variable rs : list rule.
Variable es : list expr.
Hypothesis HA : arena rs es.
Hypothesis NoNT : forall i id, nth_error es i <> Some (ENT id).
Hypothesis NoAlt : forall i, nth_error es i <> Some (EAlt []).

Lemma resolved_analysable es' ts : resolve (length es) rs es = WOk es' -> analysable (mkG rs es' ts).
Proof.
  intros H. destruct HA as [O Hr]. destruct (@resolve_ok rs (length es) es O Hr (le_n _)) as (es0 & E0 & R). assert (es0 = es') as -> by congruence.
  split.
  - intros i e E. exact (ordered_res R O E).
  - intros rl I1. cbn [exprs rules] in *. destruct R as [-> _]. exact (Hr rl I1).
  - intros i E. unfold expr_of in E. cbn [exprs] in E. destruct R as (_ & _ & B). destruct (B i) as [Q|[_ Q]]; rewrite E in Q; [exact (NoAlt (eq_sym Q))|].
    destruct (nth_error es i) as [e|] eqn:Ee; [|discriminate]. cbn in Q. injection Q as Q.
    destruct e; try discriminate Q; [|cbn in Q; injection Q as <-; exact (NoAlt Ee)]. destruct p as [|id [|]]; try discriminate Q.
    cbn in Q. destruct (existsb _ _); discriminate Q.
  - intros i id _ E. destruct (@C31_lookups_succeed rs es (length es) es' HA NoNT (le_n _) H i id ts E) as (rl & F & _). eauto.
Qed.
End Pipeline.

Lemma verdict_stable G fuel passes b : is_well_formed G fuel passes = WOk b -> forall f p, fuel <= f -> passes <= p -> is_well_formed G f p = WOk b.
Proof.
  intros H f p Lf Lp. unfold is_well_formed in *. destruct (@upto_rules G fuel f passes p Lf Lp (wst_new G)) as [E|E]; [rewrite E in H; discriminate|rewrite E; exact H].
Qed.

(** One outcome: rejection, or the grammar with its calls resolved. *)
Theorem C43_analysis_verdict : forall fg, parsed fg -> exists r N, (forall fuel passes, N <= fuel -> N <= passes -> middle fuel passes fg = WOk r) /\
  match r with
  | None => f_rules fg = [] \/ ~ NoDup (map rname (f_rules fg)) \/ ~ NoDup (fn_names fg) \/
            exists es', resolve (length (f_exprs fg)) (f_rules fg) (f_exprs fg) = WOk es' /\ analysis_returns (mkG (f_rules fg) es' []) false
  | Some g => f_rules fg <> [] /\ NoDup (map rname (f_rules fg)) /\ NoDup (fn_names fg) /\
      a_rules g = f_rules fg /\ resolve (length (f_exprs fg)) (f_rules fg) (f_exprs fg) = WOk (a_exprs g) /\
      a_level g = merge_attrs LNothing (f_attrs fg) /\
      forall ts, analysable (mkG (a_rules g) (a_exprs g) ts) /\ accepted (mkG (a_rules g) (a_exprs g) ts)
  end.
Proof.
  intros fg [HA NoNT NoAlt].
  assert (FN : fn_names fg = map fst (flat_map fn_of (f_items fg))).
  { unfold fn_names. induction (f_items fg) as [|it l IH]; [reflexivity|]. cbn [flat_map]. rewrite map_app, <- IH. destruct it; reflexivity. }
  destruct (f_rules fg) as [|r0 rs0] eqn:ER.
  { exists None, 0. split; [|auto]. intros fuel passes _ _. unfold middle. rewrite ER. reflexivity. }
  rewrite <- ER. rewrite <- ER in HA. set (rs := f_rules fg) in *. set (es := f_exprs fg) in *.
  (* whatever the duplicates, the passes run on the kept rules *)
  assert (CORE : forall g, (forall r, In r (a_rules g) -> In r rs) -> NoDup (map rname (a_rules g)) -> a_exprs g = es ->
    exists b es' N, resolve (length es) (a_rules g) es = WOk es' /\ analysis_returns (mkG (a_rules g) es' []) b /\
      (forall ts, analysable (mkG (a_rules g) es' ts)) /\
      forall fuel passes, N <= fuel -> N <= passes ->
        wbind (resolve fuel (a_rules g) (a_exprs g)) (fun es => let g := with_exprs g es in
        wbind (is_well_formed (shape g) fuel passes) (fun b =>
        if b then wbind (chaining (shape g) fuel fuel) (fun _ => WOk (Value (with_level g (merge_attrs (a_level g) (f_attrs fg)))))
        else WOk Nothing)) =
        WOk (if b then Value (with_level (with_exprs g es') (merge_attrs (a_level g) (f_attrs fg))) else Nothing)).
  { intros g Sub ND Eg. assert (HA' : arena (a_rules g) es) by (destruct HA as [O Hr]; split; [exact O|intros r I1; apply Hr, Sub, I1]).
    destruct (@resolve_ok (a_rules g) (length es) es (ar_below HA') (ar_roots HA') (le_n _)) as (es' & Er & _).
    assert (AN : forall ts, analysable (mkG (a_rules g) es' ts)) by (intros ts; eapply resolved_analysable; eassumption).
    destruct (analysis_total (AN [])) as [b Hb].
    assert (CT : exists N ws, b = true -> forall fuel ifuel, N <= fuel -> N <= ifuel -> chaining (mkG (a_rules g) es' []) fuel ifuel = WOk ws).
    { destruct b; [|exists 0, []; discriminate]. destruct (@C36_chaining_terminates _ (AN []) ND) as (ws & N & H); [eexists; eexists; exact Hb|]. exists N, ws. auto. }
    destruct CT as (Nc & ws & CT). set (f0 := fuel0 (mkG (a_rules g) es' [])) in *. set (p0 := 3 * R (mkG (a_rules g) es' []) + 1) in *.
    exists b, es', (length es + f0 + p0 + Nc). split; [exact Er|]. split; [eexists; eexists; exact Hb|]. split; [exact AN|].
    intros fuel passes L1 L2. rewrite Eg.
    destruct (@C31_resolution (a_rules g) es HA') as (es2 & R2 & _). assert (es2 = es') as -> by (specialize (R2 _ (le_n _)); congruence).
    rewrite R2 by lia. cbn [wbind]. change (shape (with_exprs g es')) with (mkG (a_rules g) es' []).
    assert (HB : is_well_formed (mkG (a_rules g) es' []) fuel passes = WOk b) by (apply (verdict_stable Hb); lia). rewrite HB. cbn [wbind].
    destruct b; [|reflexivity]. rewrite (CT eq_refl) by lia. reflexivity. }
  assert (MID : forall f p, middle f p fg = wbind (analyse f p fg) (fun r => WOk (match r with Value g => Some (extract_stream_type g) | _ => None end))).
  { intros f p. unfold middle. fold rs. rewrite ER. reflexivity. }
  enough (W : exists r N, (forall fuel passes, N <= fuel -> N <= passes -> wbind (analyse fuel passes fg) (fun r => WOk (match r with Value g => Some (extract_stream_type g) | _ => None end)) = WOk r) /\
  match r with
  | None => rs = [] \/ ~ NoDup (map rname rs) \/ ~ NoDup (fn_names fg) \/
            exists es', resolve (length es) rs es = WOk es' /\ analysis_returns (mkG rs es' []) false
  | Some g => rs <> [] /\ NoDup (map rname rs) /\ NoDup (fn_names fg) /\
      a_rules g = rs /\ resolve (length es) rs es = WOk (a_exprs g) /\
      a_level g = merge_attrs LNothing (f_attrs fg) /\
      forall ts, analysable (mkG (a_rules g) (a_exprs g) ts) /\ accepted (mkG (a_rules g) (a_exprs g) ts)
  end).
  { destruct W as (r & N & A & B). exists r, N. split; [intros f p L1 L2; rewrite MID; apply A; assumption|exact B]. }
  unfold analyse. fold rs es.
  destruct (C30_rules (a_new es) rs) as [D1 D2]. unfold fn_names in FN.
  destruct (repeats rname rs []) eqn:Erep.
  - (* duplicate rules *)
    assert (ND : ~ NoDup (map rname rs)) by (intros Z; apply repeats_nodup in Z; congruence).
    destruct (D2 ND) as (kept & Ed & K). rewrite Ed. cbn [pand].
    set (g1 := with_rules (a_new es) kept). destruct (C30_functions g1 (f_items fg)) as [F1 F2]. cbv zeta in F1, F2.
    assert (Sub : forall r, In r kept -> In r rs) by (intros r I1; destruct (kf_first K I1) as (l1 & l2 & -> & _); apply in_or_app; right; left; reflexivity).
    assert (NEXT : exists q, (rust_functions_duplicate g1 (f_items fg) = Value q \/ rust_functions_duplicate g1 (f_items fg) = Fake q) /\ a_rules q = kept /\ a_exprs q = es).
    { destruct (repeats fst (flat_map fn_of (f_items fg)) []) eqn:Ef.
      - destruct F2 as (kf & Ek & _); [intros Z; apply repeats_nodup in Z; unfold fn_of in Ef; congruence|]. eexists. split; [right; exact Ek|]. split; reflexivity.
      - eexists. split; [left; apply F1; apply repeats_nodup; exact Ef|]. split; reflexivity. }
    destruct NEXT as (q & Eq & Eqr & Eqe).
    destruct (CORE q) as (b & es' & N & Er & AR & AN & H); [rewrite Eqr; exact Sub|rewrite Eqr; exact (kf_distinct K)|exact Eqe|].
    exists None, N. split; [|auto]. intros fuel passes L1 L2. specialize (H fuel passes L1 L2). cbv zeta in H.
    destruct Eq as [Eq|Eq]; rewrite Eq; cbn [pand]; cbv zeta; rewrite H; destruct b; reflexivity.
  - assert (ND : NoDup (map rname rs)) by (apply repeats_nodup, Erep). rewrite (D1 ND). cbn [pand].
    set (g1 := with_rules (a_new es) rs). destruct (C30_functions g1 (f_items fg)) as [F1 F2]. cbv zeta in F1, F2.
    destruct (repeats fst (flat_map fn_of (f_items fg)) []) eqn:Ef.
    + assert (NF : ~ NoDup (map fst (flat_map fn_of (f_items fg)))) by (intros Z; apply repeats_nodup in Z; congruence).
      destruct (F2 NF) as (kf & Ek & _). rewrite Ek. set (q := with_rust g1 kf _).
      destruct (CORE q) as (b & es' & N & Er & AR & AN & H); [auto|exact ND|reflexivity|].
      exists None, N. split; [|right; right; left; unfold fn_names; rewrite FN; exact NF]. intros fuel passes L1 L2. specialize (H fuel passes L1 L2). cbv zeta in H.
      cbn [pand]. cbv zeta. rewrite H. destruct b; reflexivity.
    + assert (NF : NoDup (map fst (flat_map fn_of (f_items fg)))) by (apply repeats_nodup, Ef). rewrite (F1 NF). set (q := with_rust g1 _ _).
      destruct (CORE q) as (b & es' & N & Er & AR & AN & H); [auto|exact ND|reflexivity|]. change (a_rules q) with rs in Er, AR, AN.
      destruct b.
      * eexists. exists N. split.
        { intros fuel passes L1 L2. specialize (H fuel passes L1 L2). cbv zeta in H. cbn [pand]. cbv zeta. rewrite H. cbn [wbind]. reflexivity. }
        cbv beta iota. split; [rewrite ER; discriminate|]. split; [exact ND|]. split; [unfold fn_names; rewrite FN; exact NF|].
        match goal with |- context [extract_stream_type ?g] => assert (SR : a_rules (extract_stream_type g) = a_rules g /\ a_exprs (extract_stream_type g) = a_exprs g /\ a_level (extract_stream_type g) = a_level g) by (unfold extract_stream_type; destruct (find_map _ _); repeat split) end.
        destruct SR as (-> & -> & ->). cbn [a_rules a_exprs a_level with_level with_exprs q g1 with_rust with_rules a_new].
        split; [reflexivity|]. split; [exact Er|]. split; [reflexivity|]. intros ts. split; [apply AN|exact AR].
      * exists None, N. split; [|right; right; right; exists es'; auto]. intros fuel passes L1 L2. specialize (H fuel passes L1 L2). cbv zeta in H. cbn [pand]. cbv zeta. rewrite H. reflexivity.
Qed.

(** ---------------- concrete cases ---------------- *)
(** [sum = num ("+" num)*  num = ["0-9"]+ > number  fn number(..) {..}  type Stream = ..] as parsed. *)
Definition sumF : fgrammar := mkF
  [mkRule "sum" 8; mkRule "num" 2]
  [EClass [(48, 57)%N]; EPlus 0; EAct 1 false (ActPath ["number"]); EExt ["num"]; EStr [43%N]; EExt ["num"];
   ESeq [4; 5]; EStar 6; ESeq [3; 7]]
  [RFn "number" "fn number(..)"; ROther "use x;"; RAlias "Stream" "type Stream = S;"]
  [["show_typing"]].
Ltac each_index := intros i; do 9 (destruct i as [|i]; [cbn; try discriminate|]); destruct i; cbn; try discriminate.
Example C43_case : parsed sumF /\ exists g, middle 200 20 sumF = WOk (Some g) /\
  nth_error (a_exprs g) 3 = Some (ENT "num") /\ a_funs g = [("number", "fn number(..)")] /\ a_stream g = ("Stream", "type Stream = S;") /\ a_level g = LShow.
Proof.
  split.
  - split; [split|..].
    + intros i e E. do 9 (destruct i as [|i]; [cbn in E; injection E as <-; cbn; repeat constructor|]). destruct i; discriminate.
    + intros r [<-|[<-|[]]]; cbn; lia.
    + intros i id. revert i. each_index.
    + each_index.
  - eexists. split; [vm_compute; reflexivity|]. repeat split.
Qed.
(** [r = !(!"a") .]: warned, and the advice is right. *)
Definition nnG : grammar := mkG [mkRule "r" 4] [EStr [97%N]; ENot 0; ENot 1; EAny; ESeq [2; 3]] [].
Example C35_case : analysable nnG /\ accepted nnG /\ warns nnG [mkW 2 PNot PNot PAnd] /\ wraps nnG 1 1 /\ expr_of nnG 1 = Some (ENot 0).
Proof.
  split.
  { split.
    - intros i e E. do 5 (destruct i as [|i]; [cbn in E; injection E as <-; cbn; repeat constructor|]). destruct i; discriminate.
    - intros rl [<-|[]]. cbn. lia.
    - intros i E. do 5 (destruct i as [|i]; [cbn in E; discriminate|]). destruct i; discriminate.
    - intros i id _ E. do 5 (destruct i as [|i]; [cbn in E; discriminate|]). destruct i; discriminate. }
  split; [exists 20, 10; vm_compute; reflexivity|]. split.
  { exists 5. intros fuel ifuel L1 L2. do 5 (destruct fuel as [|fuel]; try lia). do 5 (destruct ifuel as [|ifuel]; try lia). reflexivity. }
  split; [constructor|reflexivity].
Qed.
Example C30_case : rule_duplicate (a_new []) [mkRule "a" 0; mkRule "b" 1; mkRule "a" 2] = Fake (with_rules (a_new []) [mkRule "a" 0; mkRule "b" 1]).
Proof. reflexivity. Qed.
Example C37_case : typing_attrs [["inline"]; ["show_typing"]; ["debug_typing"]] = [false; true]
  /\ merge_attrs LNothing [["inline"]; ["show_typing"]; ["debug_typing"]] = LDebug.
Proof. split; reflexivity. Qed.

Print Assumptions C30_rules.
Print Assumptions C30_functions.
Print Assumptions C31_resolution.
Print Assumptions C31_lookups_succeed.
Print Assumptions C35_rewrites_preserve_partial.
Print Assumptions C35_plus_star.
Print Assumptions C35_no_warning_no_chain.
Print Assumptions C35_rewrites_preserve_refuted.
Print Assumptions C35_first_operand_refuted.
Print Assumptions C36_chaining_terminates.
Print Assumptions C37_levels_accumulate_partial.
Print Assumptions C37_levels_accumulate_refuted.
Print Assumptions C41_user_stream.
Print Assumptions C41_default_stream.
Print Assumptions C43_analysis_verdict.
