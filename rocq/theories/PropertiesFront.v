(** Property theorems about the front end (C38).

    The parser of the grammar syntax is Front.v.  The specification is FrontSpec.v: [tree] is the abstract
    syntax, [tree_at es i t] says that the arena [es] stores [t] at index [i], [d_grammar] is the documented
    syntax as a grammar over tokens, from the loosest operator to the tightest, and [print_grammar]
    (FrontGrammar.v) writes a grammar with as few parentheses as these precedences allow.
    [rust_type] and [rust_item] stand for the parsers of Rust types and items of the crate syn. *)
From Coq Require Import Ascii Permutation.
From Verif Require Import Base Grammar CharClass Analysis AnalysisFacts WellFormed WfSyntax PropertiesAnalysis TypingTop.
From Verif Require Import Front FrontFacts FrontSpec FrontSound FrontRound FrontGrammar.
Set Implicit Arguments. Unset Strict Implicit.
Open Scope string_scope. Open Scope nat_scope. Open Scope list_scope.

(** The parsers of syn read at least one token and leave a suffix of what they were given. *)
Definition reads (A : Type) (f : list tok -> option (A * list tok)) : Prop :=
  forall ts a r, f ts = Some (a, r) -> exists u, u <> [] /\ ts = u ++ r.

(** ---------------- C38: the text of a grammar gives back the grammar ---------------- *)
Theorem C38_round_trip : forall rust_type rust_item ty_toks,
  (forall r, rust_type (TPunct ":" false :: r) = None) ->
  forall l, Forall (canon_block rust_type rust_item ty_toks) l ->
  exists g, parse_grammar rust_type rust_item (print_grammar ty_toks l) = FOk g /\
    f_attrs g = flat_map fst l /\
    f_items g = block_items (map (fun q => meaning (snd q)) l) /\
    rules_at (f_exprs g) (f_rules g) (block_rules (map (fun q => meaning (snd q)) l)).
Proof. intros rt ri tt H l F. exact (grammar_text H F). Qed.

(** ---------------- C38: what is accepted is derived by the documented grammar ---------------- *)
Theorem C38_accepted_is_documented : forall rust_type rust_item, reads rust_type -> reads rust_item ->
  forall ts g, parse_grammar rust_type rust_item ts = FOk g ->
  exists bs, d_grammar rust_type rust_item ts (f_attrs g) bs /\ f_items g = block_items bs /\
    rules_at (f_exprs g) (f_rules g) (block_rules bs).
Proof. intros rt ri H1 H2 ts g H. exact (grammar_sound H1 H2 H). Qed.

(** ---------------- C38: the parser always answers ---------------- *)
Theorem C38_terminates : forall rust_type rust_item, reads rust_type -> reads rust_item ->
  forall ts, parse_grammar rust_type rust_item ts <> FLoop.
Proof. intros rt ri H1 H2 ts. exact (grammar_total H1 H2 (ts := ts)). Qed.

(** ---------------- C38: the arena ---------------- *)
(** Children come before their parents; each expression is the body of one rule or the child of one
    expression; there is no empty sequence, choice or class, and no resolved call yet. *)
Theorem C38_arena : forall rust_type rust_item ts fg, parse_grammar rust_type rust_item ts = FOk fg ->
  (forall i e, nth_error (f_exprs fg) i = Some e -> Forall (fun j => j < i) (children e)) /\
  Permutation (map rexpr (f_rules fg) ++ flat_map children (f_exprs fg)) (seq 0 (length (f_exprs fg))) /\
  (forall i e, nth_error (f_exprs fg) i = Some e ->
     match e with
     | ENT _ => False
     | ESeq l | EAlt l => 2 <= length l
     | EClass l => l <> []
     | EAsc _ t => t = IInvisible \/ t = IRegular TUnit \/ exists s, t = IRegular (TRust s)
     | ERange j => exists k, nth_error (f_exprs fg) j = Some (EAsc k (IRegular TUnit))
     | _ => True
     end).
Proof.
  intros rt ri ts fg H. destruct (grammar_built H) as [A B C]. split; [exact A|]. split; [exact B|].
  intros i e E. specialize (C i e E). destruct e; cbn in C; auto.
Qed.
Theorem C38_parsed : forall rust_type rust_item ts fg, parse_grammar rust_type rust_item ts = FOk fg -> parsed fg.
Proof.
  intros rt ri ts fg H. destruct (C38_arena H) as (A & B & C). split; [split; [exact A|]| |].
  - intros r I. assert (In (rexpr r) (seq 0 (length (f_exprs fg)))) as I2 by (apply (Permutation_in _ B), in_or_app; left; apply in_map, I).
    apply in_seq in I2. lia.
  - intros i id E. exact (C i _ E).
  - intros i E. specialize (C i _ E). cbn in C. lia.
Qed.

(** Resolution keeps the shape of the arena. *)
Lemma resolved_shape rs es fuel es' : arena rs es -> length es <= fuel -> resolve fuel rs es = WOk es' ->
  length es' = length es /\ forall i e, nth_error es i = Some e -> nth_error es' i = Some e \/ exists id, e = EExt [id] /\ nth_error es' i = Some (ENT id).
Proof.
  intros [O Hr] L H. destruct (@resolve_ok rs fuel es O Hr L) as (es0 & E0 & (L0 & _ & B)). assert (es0 = es') as -> by congruence.
  split; [exact L0|]. intros i e E. destruct (B i) as [Q|[_ Q]]; rewrite E in Q; [now left|]. cbn in Q.
  destruct e; auto. cbn in Q. destruct p as [|id [|]]; auto. destruct (existsb _ rs); auto. right. exists id. auto.
Qed.
Lemma resolved_children rs es fuel es' : arena rs es -> length es <= fuel -> resolve fuel rs es = WOk es' ->
  forall i e', nth_error es' i = Some e' -> exists e, nth_error es i = Some e /\ children e' = children e /\
    (e' = e \/ exists id, e = EExt [id] /\ e' = ENT id).
Proof.
  intros A L H i e' E. destruct (resolved_shape A L H) as [Ln R]. destruct (nth_error es i) as [e|] eqn:Ee.
  - exists e. split; [reflexivity|]. destruct (R i e Ee) as [Q|(id & -> & Q)]; rewrite E in Q; injection Q as ->; eauto.
  - exfalso. apply nth_error_None in Ee. assert (i < length es') by (apply nth_error_Some; congruence). lia.
Qed.
Lemma flat_map_nth (A B : Type) (f : A -> list B) l1 : forall l2, length l1 = length l2 ->
  (forall i a, nth_error l1 i = Some a -> exists b, nth_error l2 i = Some b /\ f a = f b) -> flat_map f l1 = flat_map f l2.
Proof.
  induction l1 as [|a l1 IH]; intros [|b l2] L H; try discriminate; [reflexivity|]. cbn [flat_map].
  destruct (H 0 a eq_refl) as (b' & E & Ef). cbn in E. injection E as <-. rewrite Ef. f_equal. apply IH; [cbn in L; lia|].
  intros i x E. exact (H (S i) x E).
Qed.

(** ---------------- C38: from the text to the typing phase ---------------- *)
(** The conditions under which the theorems about type inference are stated hold of every grammar the front
    end parses and the analyses accept. *)
Definition middle_answers (fg : fgrammar) (r : option agrammar) : Prop :=
  exists N, forall fuel passes, N <= fuel -> N <= passes -> middle fuel passes fg = WOk r.
Theorem C38_well_built : forall rust_type rust_item ts fg, parse_grammar rust_type rust_item ts = FOk fg ->
  forall g, middle_answers fg (Some g) -> well_built (shape g).
Proof.
  intros rt ri ts fg H g (N0 & M). pose proof (C38_parsed H) as PA. destruct (C38_arena H) as (A & B & C).
  destruct (C43_analysis_verdict PA) as (r & N & R & V).
  assert (r = Some g) as ->.
  { specialize (M (N0 + N) (N0 + N) ltac:(lia) ltac:(lia)). rewrite R in M by lia. congruence. }
  destruct V as (V1 & V2 & _ & V3 & V4 & _ & _). pose proof (resolved_children (pa_arena PA) (le_n _) V4) as RC.
  destruct (resolved_shape (pa_arena PA) (le_n _) V4) as [Ln RS].
  unfold shape. rewrite V3 in *. split; unfold expr_of; cbn [rules exprs].
  - intros i e E. destruct (RC i e E) as (e0 & E0 & -> & _). exact (A i e0 E0).
  - rewrite Ln. erewrite flat_map_nth; [exact B|exact Ln|]. intros i a E. destruct (RC i a E) as (e0 & E0 & Q & _). eauto.
  - exact V2.
  - exact V1.
  - intros i id E. destruct (@C31_lookups_succeed _ _ _ _ (pa_arena PA) (pa_calls PA) (le_n _) V4 i id [] E) as (rl & F & _). exists rl. exact F.
  - intros i E. destruct (RC i _ E) as (e0 & E0 & _ & [<-|(id & _ & Q)]); [|discriminate]. specialize (C i _ E0). cbn in C. lia.
  - intros i E. destruct (RC i _ E) as (e0 & E0 & _ & [<-|(id & _ & Q)]); [|discriminate]. specialize (C i _ E0). cbn in C. lia.
  - intros i E. destruct (RC i _ E) as (e0 & E0 & _ & [<-|(id & _ & Q)]); [|discriminate]. exact (C i _ E0 eq_refl).
  - intros i j t E. destruct (RC i _ E) as (e0 & E0 & _ & [<-|(id & _ & Q)]); [|discriminate]. exact (C i _ E0).
  - intros i j E. destruct (RC i _ E) as (e0 & E0 & _ & [<-|(id & _ & Q)]); [|discriminate]. destruct (C i _ E0) as (k & Ek). exists k.
    destruct (RS j _ Ek) as [Q|(id & Q & _)]; [exact Q|discriminate].
Qed.

(** ---------------- C38: a span in the middle of a sequence ---------------- *)
(** parser.rs:355-359 announces that [e1 .. e2] is rejected because [..] must start a sequence.  It is not:
    the test for the any-character expression comes first and also accepts the first character of [..]. *)
Definition dots : list tok := [TPunct "." true; TPunct "." false].
Theorem C38_span_inside_sequence_refuted : forall rust_type rust_item, exists (a b : text) (g : fgrammar),
  parse_grammar rust_type rust_item (TId "r" :: TPunct "=" false :: TStr a :: dots ++ [TStr b]) = FOk g /\ rules_at (f_exprs g) (f_rules g) [("r", XSeq [XStr a; XAny; XAny; XStr b])].
Proof.
  intros rt ri. exists [97%N], [98%N]. eexists. split; [reflexivity|]. constructor; [|constructor]. split; [reflexivity|].
  cbn [rexpr snd tree_at f_exprs]. exists [0; 1; 2; 3]. split; [reflexivity|]. repeat split.
Qed.
(** At the start of a sequence it is a span. *)
Theorem C38_span_first : forall rust_type rust_item, exists g : fgrammar,
  parse_grammar rust_type rust_item (TId "r" :: TPunct "=" false :: dots ++ [TStr [97%N]; TStr [98%N]]) = FOk g /\ rules_at (f_exprs g) (f_rules g) [("r", XSpan (XSeq [XStr [97%N]; XStr [98%N]]))].
Proof.
  intros rt ri. eexists. split; [reflexivity|]. constructor; [|constructor]. split; [reflexivity|].
  cbn [rexpr snd tree_at f_exprs]. exists 2. split; [reflexivity|]. exists [0; 1]. split; [reflexivity|]. repeat split.
Qed.

(** ---------------- the hypotheses are met ---------------- *)
(** A parser of Rust types that knows one parenthesised name, and a parser of items that knows [fn f {}]. *)
Definition toy_type (ts : list tok) : option (string * list tok) :=
  match ts with TGroup Paren [TId s] :: r => Some (s, r) | _ => None end.
Definition toy_toks (s : string) : list tok := [TGroup Paren [TId s]].
Definition toy_item (ts : list tok) : option (rust_item * list tok) :=
  match ts with TKw k :: TId n :: TGroup Paren [] :: TGroup Brace l :: r => if String.eqb k "fn" then Some (RFn n "", r) else None | _ => None end.
Lemma toy_reads : reads toy_type /\ reads toy_item.
Proof.
  split; intros ts a r H.
  - destruct ts as [|[] ts]; try discriminate. destruct d; try discriminate. destruct l as [|[] [|]]; try discriminate. injection H as <- <-.
    exists [TGroup Paren [TId s]]. split; [discriminate|reflexivity].
  - destruct ts as [|[] ts]; try discriminate. destruct ts as [|[] ts]; try discriminate. destruct ts as [|[] ts]; try discriminate.
    destruct d; try discriminate. destruct l; try discriminate. destruct ts as [|[] ts]; try discriminate. destruct d; try discriminate.
    cbn in H. destruct (String.eqb s "fn"); [|discriminate]. injection H as <- <-.
    exists [TKw s; TId s0; TGroup Paren []; TGroup Brace l]. split; [discriminate|reflexivity].
Qed.
(** [#![debug_api]  expr: (Expr) = (term "+" / !"x" .)* > box make    fn make() {}    term = .. ["0-9"]+] *)
Definition sample : list (list (list string) * source) :=
  [ ([["debug_api"]], SRule "expr" (Some (IRegular (TRust "Expr")))
      (XAct (XStar (XAlt [XSeq [XCall ["term"]; XStr [43%N]]; XSeq [XNot (XStr [120%N]); XAny]])) true ["make"]));
    ([], SItem [TKw "fn"; TId "make"; TGroup Paren []; TGroup Brace []] (RFn "make" ""));
    ([], SRule "term" None (XSpan (XPlus (XClass false [Interval 48%N 57%N] false)))) ].
Example sample_canon : Forall (canon_block toy_type toy_item toy_toks) sample.
Proof.
  assert (D : delimited toy_type toy_toks "Expr").
  { split; [intros r _; reflexivity|]. cbn. split; [discriminate|reflexivity]. }
  assert (T : canon_ty toy_type toy_toks (IRegular (TRust "Expr"))) by (right; right; exists "Expr"; split; [reflexivity|exact D]).
  unfold sample. constructor; [split; [|split; [exact T|]]|constructor; [split|constructor; [split|constructor]]]; cbn.
  - constructor; [discriminate|constructor].
  - repeat split; try discriminate; lia.
  - constructor.
  - split; [intros r; reflexivity|]. exists "fn", [TId "make"; TGroup Paren []; TGroup Brace []]. split; reflexivity.
  - constructor.
  - split; [|discriminate]. constructor; [split; discriminate|constructor].
Qed.
Example sample_no_colon : forall r, toy_type (TPunct ":" false :: r) = None. Proof. reflexivity. Qed.
Example sample_parsed : exists g, parse_grammar toy_type toy_item (print_grammar toy_toks sample) = FOk g /\ length (f_exprs g) = 14 /\ map rname (f_rules g) = ["expr"; "term"].
Proof. eexists. split; [vm_compute; reflexivity|]. split; reflexivity. Qed.
(** Precedence: a star binds tighter than a predicate. *)
Example precedence_example : print toy_toks (XNot (XStar (XStr [97%N]))) = [TPunct "!" false; TStr [97%N]; TPunct "*" false] /\ print toy_toks (XStar (XNot (XStr [97%N]))) = [TGroup Paren [TPunct "!" false; TStr [97%N]]; TPunct "*" false].
Proof. split; reflexivity. Qed.

Print Assumptions C38_round_trip.
Print Assumptions C38_accepted_is_documented.
Print Assumptions C38_terminates.
Print Assumptions C38_well_built.
