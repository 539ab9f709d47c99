(** Property theorems about two checks of rustc on the generated functions (C53): parameters of type
    [&mut T] are not assigned, tested or borrowed again ([refs_ok]), no variable is used after it may
    have been moved ([moves_ok]); see RustcCheck.v for the checks. *)
From Coq Require Import Ascii Permutation.
From Verif Require Import Base Utf8 Stream ParseState RuntimeFacts Grammar PegSpec Target Compile TargetFacts ScopeFacts
  CompileShape EvalRules CompileCorrect ScopeGen GenTotal PegFacts Running WellFormed WfFacts WfSound WfSyntax WfTerm WfFuel PegRun Behave Values CharClass
  Analysis AnalysisFacts PropertiesWf PropertiesPeg PropertiesAnalysis Typing TypeRules SurfaceFacts RefFacts DepthFacts TypingSound TypingFit GenAgree TypingTop TypingVerdict
  TypingTotal TypingAnswer TypingFuel MiddleFuel PropertiesTyping SumGrammar Front FrontFacts FrontSpec FrontSound FrontRound FrontGrammar PropertiesFront Agree TreeSpec TreeFacts Literals Pipeline
  PropertiesMain PropertiesRules RType PropertiesSignature Oak OakFacts PropertiesOak PropertiesModule RustcCheck RustcRefs RustcMoves.
Set Implicit Arguments. Unset Strict Implicit.
Open Scope string_scope. Open Scope nat_scope. Open Scope list_scope.

(** ---------------- specification, on the source ---------------- *)
(** Recognizers: where a choice is a problem. A choice that something follows in a sequence ([p]) puts
    what follows in a closure, which takes the flags of the enclosing choices ([h]: there are some) as
    [&mut] parameters; [st]: what follows assigns such a flag (the end of every branch but the last of a
    choice does) or passes it on. [t_reaches]: the same of an expression and what follows it. *)
Fixpoint t_reaches (p h st : bool) (t : tree) : bool :=
  match t with
  | XStr _ | XAny | XClass _ _ _ | XCall _ => st
  | XSeq l => seq_reaches t_reaches p h st l
  | XAlt l => existsb (t_reaches false h (if p then h else st)) l
  | XStar t | XPlus t | XOpt t | XNot t | XAnd t => t_reaches p h false t || st
  | XAct t _ _ | XAsc t _ | XSpan t | XRange t => t_reaches p h st t
  end.
Fixpoint t_fits (p h st : bool) (t : tree) : bool :=
  match t with
  | XStr _ | XAny | XClass _ _ _ | XCall _ => true
  | XSeq l => seq_fits t_reaches t_fits p h st l
  | XAlt l => negb (p && st) && alt_fits t_fits h (if p then h else st) l
  | XStar t | XPlus t | XOpt t | XNot t | XAnd t => t_fits p h false t
  | XAct t _ _ | XAsc t _ | XSpan t | XRange t => t_fits p h st t
  end.
Definition flags_fit (t : tree) : bool := t_fits false false false t.

(** Simple conditions. *)
Fixpoint no_choice (t : tree) : bool :=
  match t with
  | XStr _ | XAny | XClass _ _ _ | XCall _ => true
  | XAlt _ => false
  | XSeq l => forallb no_choice l
  | XStar t | XPlus t | XOpt t | XNot t | XAnd t | XAct t _ _ | XAsc t _ | XSpan t | XRange t => no_choice t
  end.
(** In a sequence, only the last element has choices. *)
Fixpoint choices_last (t : tree) : bool :=
  match t with
  | XStr _ | XAny | XClass _ _ _ | XCall _ => true
  | XAlt l => forallb choices_last l
  | XSeq l => (fix go l := match l with [] => true | [t] => choices_last t | t :: r => no_choice t && go r end) l
  | XStar t | XPlus t | XOpt t | XNot t | XAnd t | XAct t _ _ | XAsc t _ | XSpan t | XRange t => choices_last t
  end.
(** No element of a sequence has choices. *)
Fixpoint choices_apart (t : tree) : bool :=
  match t with
  | XStr _ | XAny | XClass _ _ _ | XCall _ => true
  | XAlt l => forallb choices_apart l
  | XSeq l => forallb no_choice l
  | XStar t | XPlus t | XOpt t | XNot t | XAnd t | XAct t _ _ | XAsc t _ | XSpan t | XRange t => choices_apart t
  end.

(** ---------------- the arena and the source ---------------- *)
Section Arena.
Variables (G : grammar) (rs : list (string * tree)).
Hypothesis DOWN : forall i e, expr_of G i = Some e -> Forall (fun j => j < i) (children e).

Lemma reaches_tree : forall t i fuel p h st, stored G rs i t -> i < fuel -> reaches G fuel Rec p h st i = t_reaches p h st t.
Proof.
  assert (ALL : forall l, Forall (fun t => forall i fuel p h st, stored G rs i t -> i < fuel -> reaches G fuel Rec p h st i = t_reaches p h st t) l ->
     forall js i n, Forall2 (stored G rs) js l -> Forall (fun j => j < i) js -> i <= n ->
       (forall p h st, seq_reaches (reaches G n Rec) p h st js = seq_reaches t_reaches p h st l) /\
       (forall p h st, existsb (reaches G n Rec p h st) js = existsb (t_reaches p h st) l)).
  { induction 1 as [|t l Ht HF IH]; intros js i n F2 LT Le; inversion F2 as [|j ? js' ? S0 F2' ]; subst; [auto|].
    inversion LT as [|? ? Lj LT']; subst. destruct (IH _ _ _ F2' LT' Le) as [A B]. split; intros p h st.
    - cbn [seq_reaches]. inversion F2' as [|j' ? ? ? S1 F3]; subst; [apply Ht; [exact S0|lia]|]. rewrite A. apply Ht; [exact S0|lia].
    - cbn [existsb]. rewrite B, (Ht j n) by (auto; lia). reflexivity. }
  induction t as [s| |a b c|q|l IHl|l IHl|t IH|t IH|t IH|t IH|t IH|t b q IH|t ty IH|t IH|t IH] using tree_ind';
    intros i fuel p h st S0 L; (destruct fuel as [|n]; [lia|]); inversion S0; subst; cbn [reaches mode_at t_reaches];
    match goal with E : expr_of G i = Some ?e |- _ => pose proof (DOWN E) as D; rewrite E; cbn [children] in D end; try reflexivity.
  - match goal with F : Forall2 _ _ _ |- _ => destruct (ALL l IHl _ i n F D) as [A B]; [lia|]; rewrite A; reflexivity end.
  - match goal with F : Forall2 _ _ _ |- _ => destruct (ALL l IHl _ i n F D) as [A B]; [lia|]; rewrite B; reflexivity end.
  - inversion D; subst. rewrite (IH j n) by (auto; lia). reflexivity.
  - inversion D; subst. rewrite (IH j n) by (auto; lia). reflexivity.
  - inversion D; subst. rewrite (IH j n) by (auto; lia). reflexivity.
  - inversion D; subst. rewrite (IH j n) by (auto; lia). reflexivity.
  - inversion D; subst. rewrite (IH j n) by (auto; lia). reflexivity.
  - inversion D; subst. rewrite (IH j n) by (auto; lia). reflexivity.
  - inversion D; subst. rewrite (IH j n) by (auto; lia). reflexivity.
  - inversion D; subst. rewrite (IH j n) by (auto; lia). reflexivity.
  - inversion D; subst. destruct n as [|n]; [lia|]. cbn [reaches mode_at]. match goal with E : expr_of G u = Some ?e |- _ => pose proof (DOWN E) as D2; rewrite E; cbn [children] in D2 end.
    inversion D2; subst. apply IH; [assumption|lia].
Qed.
Lemma fits_tree : forall t i fuel p h st, stored G rs i t -> i < fuel -> fits G fuel Rec p h st i = t_fits p h st t.
Proof.
  assert (ALL : forall l, Forall (fun t => forall i fuel p h st, stored G rs i t -> i < fuel -> fits G fuel Rec p h st i = t_fits p h st t) l ->
     forall js i n, Forall2 (stored G rs) js l -> Forall (fun j => j < i) js -> i <= n ->
       (forall p h st, seq_reaches (reaches G n Rec) p h st js = seq_reaches t_reaches p h st l) /\
       (forall p h st, seq_fits (reaches G n Rec) (fits G n Rec) p h st js = seq_fits t_reaches t_fits p h st l) /\
       (forall h st, alt_fits (fits G n Rec) h st js = alt_fits t_fits h st l)).
  { induction 1 as [|t l Ht HF IH]; intros js i n F2 LT Le; inversion F2 as [|j ? js' ? S0 F2' ]; subst; [auto|].
    inversion LT as [|? ? Lj LT']; subst. destruct (IH _ _ _ F2' LT' Le) as (A & B & C). assert (Ln : j < n) by lia. split; [|split]; intros.
    - cbn [seq_reaches]. inversion F2' as [|j' ? ? ? S1 F3]; subst; [|rewrite A]; apply reaches_tree; assumption.
    - cbn [seq_fits]. inversion F2' as [|j' ? ? ? S1 F3]; subst; [apply Ht; assumption|]. rewrite A, B, (Ht j n) by assumption. reflexivity.
    - cbn [alt_fits]. inversion F2' as [|j' ? ? ? S1 F3]; subst; [apply Ht; assumption|]. rewrite C, (Ht j n) by assumption. reflexivity. }
  induction t as [s| |a b c|q|l IHl|l IHl|t IH|t IH|t IH|t IH|t IH|t b q IH|t ty IH|t IH|t IH] using tree_ind';
    intros i fuel p h st S0 L; (destruct fuel as [|n]; [lia|]); inversion S0; subst; cbn [fits mode_at t_fits];
    match goal with E : expr_of G i = Some ?e |- _ => pose proof (DOWN E) as D; rewrite E; cbn [children] in D end; try reflexivity.
  - match goal with F : Forall2 _ _ _ |- _ => destruct (ALL l IHl _ i n F D) as (A & B & C); [lia|]; rewrite B; reflexivity end.
  - match goal with F : Forall2 _ _ _ |- _ => destruct (ALL l IHl _ i n F D) as (A & B & C); [lia|]; rewrite C; reflexivity end.
  - inversion D; subst. rewrite (IH j n) by (auto; lia). reflexivity.
  - inversion D; subst. rewrite (IH j n) by (auto; lia). reflexivity.
  - inversion D; subst. rewrite (IH j n) by (auto; lia). reflexivity.
  - inversion D; subst. rewrite (IH j n) by (auto; lia). reflexivity.
  - inversion D; subst. rewrite (IH j n) by (auto; lia). reflexivity.
  - inversion D; subst. rewrite (IH j n) by (auto; lia). reflexivity.
  - inversion D; subst. rewrite (IH j n) by (auto; lia). reflexivity.
  - inversion D; subst. rewrite (IH j n) by (auto; lia). reflexivity.
  - inversion D; subst. destruct n as [|n]; [lia|]. cbn [fits mode_at]. match goal with E : expr_of G u = Some ?e |- _ => pose proof (DOWN E) as D2; rewrite E; cbn [children] in D2 end.
    inversion D2; subst. apply IH; [assumption|lia].
Qed.

Lemma quiet_tree : forall t, no_choice t = true -> forall i fuel m, stored G rs i t ->
  (forall p h st, fits G fuel m p h st i = true) /\ (forall p d left, single G fuel m p d left i = true).
Proof.
  assert (ALL : forall l, Forall (fun t => no_choice t = true -> forall i fuel m, stored G rs i t ->
      (forall p h st, fits G fuel m p h st i = true) /\ (forall p d left, single G fuel m p d left i = true)) l ->
    forallb no_choice l = true -> forall js n m, Forall2 (stored G rs) js l ->
      (forall r p h st, seq_fits r (fits G n m) p h st js = true) /\ (forall co p d left, seq_single co (single G n m) p d left js = true)).
  { induction 1 as [|t l Ht HF IH]; intros NC js n m F2; inversion F2 as [|j ? js' ? S0 F2']; subst; [auto|].
    cbn [forallb] in NC. apply andb_true_iff in NC. destruct NC as [NC1 NC2]. destruct (IH NC2 _ n m F2') as [A B]. destruct (Ht NC1 j n m S0) as [C D]. split; intros.
    - cbn [seq_fits]. destruct js'; [apply C|]. rewrite A, C. reflexivity.
    - cbn [seq_single]. destruct js'; [apply D|]. rewrite B, D. reflexivity. }
  induction t as [s| |a b c|q|l IHl|l IHl|t IH|t IH|t IH|t IH|t IH|t b q IH|t ty IH|t IH|t IH] using tree_ind';
    intros NC i fuel m S0; (destruct fuel as [|n]; [auto|]); inversion S0; subst; cbn [no_choice] in NC; try discriminate NC;
    cbn [fits single]; match goal with E : expr_of G i = Some ?e |- _ => rewrite E end; try (split; intros; reflexivity).
  - match goal with F : Forall2 _ _ _ |- _ => destruct (ALL l IHl NC _ n (mode_at G m i) F) as [A B]; split; intros; [apply A|apply B] end.
  - destruct (mode_at G m i); split; intros; apply IH; assumption.
  - destruct (mode_at G m i); split; intros; apply IH; assumption.
  - destruct (mode_at G m i); split; intros; apply IH; assumption.
  - split; intros; apply IH; assumption.
  - split; intros; apply IH; assumption.
  - destruct (mode_at G m i); split; intros; apply IH; assumption.
  - split; intros; apply IH; assumption.
  - split; intros; apply IH; assumption.
  - destruct n as [|n]; [split; reflexivity|]. cbn [fits single]. match goal with E : expr_of G u = Some ?e |- _ => rewrite E end. split; intros; apply IH; assumption.
Qed.
Lemma last_tree : forall t, choices_last t = true -> forall i fuel m, stored G rs i t -> forall h st, fits G fuel m false h st i = true.
Proof.
  induction t as [s| |a b c|q|l IHl|l IHl|t IH|t IH|t IH|t IH|t IH|t b q IH|t ty IH|t IH|t IH] using tree_ind';
    intros NC i fuel m S0 h st; (destruct fuel as [|n]; [reflexivity|]); inversion S0; subst; cbn [choices_last] in NC;
    cbn [fits]; match goal with E : expr_of G i = Some ?e |- _ => rewrite E end; try reflexivity.
  - match goal with F : Forall2 _ ?js l |- _ => assert (A : forall m' r st, seq_fits r (fits G n m') false h st js = true); [|apply A]; clear - F NC IHl; rename F into F2 end.
    induction F2 as [|j t js l S1 F2 IH2]; intros m' r st; [reflexivity|]. inversion IHl as [|? ? Ht IHl']; subst. cbn [seq_fits]. destruct F2 as [|j' t' js' l' S2 F2].
    + apply Ht; assumption.
    + apply andb_true_iff in NC. destruct NC as [NC1 NC2]. rewrite (IH2 IHl' NC2). cbn [andb]. apply (quiet_tree NC1 n m' S1).
  - cbn [andb negb]. match goal with F : Forall2 _ ?js l |- _ => assert (A : forall m' h st, alt_fits (fits G n m') h st js = true); [|apply A]; clear - F NC IHl; rename F into F2 end.
    induction F2 as [|j t js l S1 F2 IH2]; intros m' h st; [reflexivity|]. inversion IHl as [|? ? Ht IHl']; subst. cbn [forallb] in NC. apply andb_true_iff in NC. destruct NC as [NC1 NC2]. cbn [alt_fits].
    destruct js as [|j' js]; [apply Ht; assumption|]. rewrite (Ht NC1 j n m' S1). cbn [andb]. apply IH2; assumption.
  - destruct (mode_at G m i); apply IH; assumption.
  - destruct (mode_at G m i); apply IH; assumption.
  - destruct (mode_at G m i); apply IH; assumption.
  - apply IH; assumption.
  - apply IH; assumption.
  - destruct (mode_at G m i); apply IH; assumption.
  - apply IH; assumption.
  - apply IH; assumption.
  - destruct n as [|n]; [reflexivity|]. cbn [fits]. match goal with E : expr_of G u = Some ?e |- _ => rewrite E end. apply IH; assumption.
Qed.
Lemma apart_tree : forall t, choices_apart t = true -> forall i fuel m, stored G rs i t -> forall d, single G fuel m false d false i = true.
Proof.
  induction t as [s| |a b c|q|l IHl|l IHl|t IH|t IH|t IH|t IH|t IH|t b q IH|t ty IH|t IH|t IH] using tree_ind';
    intros NC i fuel m S0 d; (destruct fuel as [|n]; [reflexivity|]); inversion S0; subst; cbn [choices_apart] in NC;
    cbn [single]; match goal with E : expr_of G i = Some ?e |- _ => rewrite E end; try reflexivity.
  - match goal with F : Forall2 _ ?js l |- _ => assert (A : forall m' co left, seq_single co (single G n m') false d left js = true); [|apply A]; clear - F NC; rename F into F2 end.
    induction F2 as [|j t js l S1 F2 IH2]; intros m' co left; [reflexivity|]. cbn [forallb] in NC. apply andb_true_iff in NC. destruct NC as [NC1 NC2]. destruct (quiet_tree NC1 n m' S1) as [_ Q].
    cbn [seq_single]. destruct F2 as [|j' t' js' l' S2 F2]; [apply Q|]. rewrite Q. apply IH2; assumption.
  - cbn [andb negb]. match goal with F : Forall2 _ ?js l |- _ => assert (A : forall m', forallb (single G n m' false d false) js = true); [|apply A]; clear - F NC IHl; rename F into F2 end.
    induction F2 as [|j t js l S1 F2 IH2]; intros m'; [reflexivity|]. inversion IHl as [|? ? Ht IHl']; subst. cbn [forallb] in *. apply andb_true_iff in NC. destruct NC as [NC1 NC2].
    rewrite (Ht NC1 j n m' S1). cbn [andb]. apply IH2; assumption.
  - destruct (mode_at G m i); apply IH; assumption.
  - destruct (mode_at G m i); apply IH; assumption.
  - destruct (mode_at G m i); apply IH; assumption.
  - apply IH; assumption.
  - apply IH; assumption.
  - destruct (mode_at G m i); apply IH; assumption.
  - apply IH; assumption.
  - apply IH; assumption.
  - destruct n as [|n]; [reflexivity|]. cbn [single]. match goal with E : expr_of G u = Some ?e |- _ => rewrite E end. apply IH; assumption.
Qed.
End Arena.

Section Stored.
Variables (G G2 : grammar) (rs : list (string * tree)).
Hypothesis EXT : forall i e, expr_of G i = Some e -> expr_of G2 i = Some e.
Lemma stored_ext : forall t i, stored G rs i t -> stored G2 rs i t.
Proof.
  assert (ALL : forall l, Forall (fun t => forall i, stored G rs i t -> stored G2 rs i t) l -> forall js, Forall2 (stored G rs) js l -> Forall2 (stored G2 rs) js l).
  { induction 1 as [|t l Ht HF IH]; intros js F2; inversion F2; subst; constructor; auto. }
  induction t as [s| |a b c|q|l IHl|l IHl|t IH|t IH|t IH|t IH|t IH|t b q IH|t ty IH|t IH|t IH] using tree_ind'; intros i S0; inversion S0; subst; econstructor; eauto.
Qed.
End Stored.

Lemma rule_source G rs (l1 : list rule) (l2 : list (string * tree)) rl : Forall2 (fun r q => rname r = fst q /\ stored G rs (rexpr r) (snd q)) l1 l2 -> In rl l1 ->
  exists e, In (rname rl, e) l2 /\ stored G rs (rexpr rl) e.
Proof.
  intros SS I2. induction SS as [|r q l1 l2 [N S0] _ IH]; [destruct I2|].
  destruct I2 as [->|I2]; [exists (snd q); split; [left; rewrite N; destruct q; reflexivity|exact S0]|]. destruct (IH I2) as (e & A & B). exists e. split; [right; exact A|exact B].
Qed.

Section Functions.
Variables (rust_type : list tok -> option (string * list tok)) (rust_item : list tok -> option (rust_item * list tok)).
Variable return_type : string -> option string.
Variable generics : string -> string.
Local Notation oak := (oak rust_type rust_item return_type generics).

Lemma rules_recognizers stream G rs l : compile_rules stream G rs = WOk l ->
  forall n sg f, In (MRecognizer n sg f) l -> exists rl, In rl rs /\ rname rl = n /\ gen_recognizer G rl = COk f.
Proof.
  revert l. induction rs as [|rl rs IH]; intros l H; cbn [compile_rules] in H; [injection H as <-; intros n sg f []|].
  apply wbind_ok in H. destruct H as (r & E1 & H). apply wbind_ok in H. destruct H as (p & E2 & H). apply wbind_ok in H. destruct H as (t & ET & H).
  apply wbind_ok in H. destruct H as (l' & E3 & H). injection H as <-. apply of_cres_ok in E1, E2. intros n sg f [Q|[Q|I0]]; [|discriminate|].
  - injection Q as <- <- <-. exists rl. split; [left; reflexivity|]. auto.
  - destruct (IH l' E3 n sg f I0) as (rl' & I1 & Q). exists rl'. split; [right; exact I1|exact Q].
Qed.
Lemma content_recognizers g G m : compile_mod_content generics g G = WOk m ->
  forall n sg f, In (MRecognizer n sg f) m -> exists rl, In rl (rules G) /\ rname rl = n /\ gen_recognizer G rl = COk f.
Proof.
  intros H n sg f I0. unfold compile_mod_content in H. apply wbind_ok in H. destruct H as (l & E & H). injection H as <-.
  apply in_app_iff in I0. destruct I0 as [I0|I0]; [apply in_map_iff in I0; destruct I0 as (x & Q & _); discriminate|].
  apply in_app_iff in I0. destruct I0 as [I0|I0]; [exact (rules_recognizers E I0)|]. apply in_map_iff in I0. destruct I0 as (x & Q & _). discriminate.
Qed.
End Functions.

(** ---------------- C53 ---------------- *)
(** Recognizers: the moves are always accepted; the [&mut] parameters are respected exactly when
    [flags_fit] holds of the rule.  [chars_copy cp f]: the characters bound by a pattern are [Copy]. *)
Theorem C53_recognizers : forall rust_type rust_item return_type generics, reads rust_type -> reads rust_item ->
  forall fuel ts m, oak rust_type rust_item return_type generics fuel ts = WOk (Some m) ->
  forall attrs bs, read_as rust_type rust_item ts attrs bs ->
  forall n sg f, In (MRecognizer n sg f) m -> exists e, In (n, e) (block_rules bs) /\
    (refs_ok f = true <-> flags_fit e = true) /\ (forall cp, chars_copy cp f -> moves_ok cp f = true).
Proof.
  intros rt ri ret gen RT RI fuel ts m H attrs bs (D & fg' & PA' & _ & _ & RA) n sg f I0.
  destruct (oak_inv H) as (fg & g & G' & PA & M & TY & C). assert (fg' = fg) as -> by congruence. pose proof (middle_settles M) as MA.
  destruct (content_recognizers C I0) as (rl & I1 & RN & GR). destruct (typed_shape PA MA TY) as (out & Q & LO). pose proof (source_stored PA MA RA) as SS.
  assert (I2 : In rl (rules (shape g))) by (rewrite Q in I1; exact I1).
  destruct (rule_source SS I2) as (e & Ie & S0). rewrite RN in Ie. exists e. split; [exact Ie|]. split; [|intros cp HC; exact (recognizer_moves GR HC)].
  rewrite (recognizer_refs GR). unfold rule_refs, flags_fit.
  assert (S1 : stored G' (block_rules bs) (rexpr rl) e).
  { refine (stored_ext _ S0). rewrite Q. unfold expr_of. cbn [exprs]. intros i e0 E0. rewrite nth_error_app1; [exact E0|apply nth_error_Some; congruence]. }
  assert (AO : arena_ok G').
  { rewrite Q. eapply Pipeline.tail_arena; try eassumption; try discriminate. intros j [<-|[]]. exact (some_expr (C38_well_built PA MA)). }
  pose proof (root_low (C38_well_built PA MA) I2) as L.
  rewrite (@fits_tree G' (block_rules bs) (fun i e0 E0 => ar_children AO E0) e (rexpr rl) (gen_fuel G')); [reflexivity|exact S1|].
  unfold gen_fuel. rewrite Q. cbn [exprs]. rewrite app_length. lia.
Qed.

(** Parsers, for the grammars of [C45_macro_parsers_partial]: [choices_last] is enough for the [&mut]
    parameters, [choices_apart] for the moves.  Missing: exact conditions (for the [&mut] parameters, see
    [C53_parser_refs]), the grammars outside of [typable_parsers]. *)
Theorem C53_parsers_partial : forall rust_type rust_item return_type generics, reads rust_type -> reads rust_item ->
  forall fuel ts m, oak rust_type rust_item return_type generics fuel ts = WOk (Some m) ->
  (forall g G', expands rust_type rust_item (env_of return_type generics g fuel) ts g G' -> typable_parsers g G') ->
  forall attrs bs, read_as rust_type rust_item ts attrs bs ->
  forall n sg f, In (MParser n sg f) m -> exists e, In (n, e) (block_rules bs) /\
    (choices_last e = true -> refs_ok f = true) /\ (choices_apart e = true -> forall cp, chars_copy cp f -> moves_ok cp f = true).
Proof.
  intros rt ri ret gen RT RI fuel ts m H HT attrs bs (D & fg' & PA' & _ & _ & RA) n sg f I0.
  destruct (oak_inv H) as (fg & g & G' & PA & M & TY & C). assert (fg' = fg) as -> by congruence. pose proof (middle_settles M) as MA.
  assert (EX : expands rt ri (env_of ret gen g fuel) ts g G') by (exists fg, fuel; auto).
  destruct (HT g G' EX) as (rk & self & bad & HL & HU & HR0). pose proof (C38_well_built PA MA) as WB. destruct (typed_shape PA MA TY) as (out & Q & LO).
  destruct (typed_coherent WB TY HL HU HR0) as (_ & COH & AG & _).
  destruct (proj1 (content_parsers C) n sg f I0) as (rl & I1 & RN & GP & _).
  assert (I2 : In rl (rules (shape g))) by (rewrite Q in I1; exact I1).
  destruct (rule_source (source_stored PA MA RA) I2) as (e & Ie & S0). rewrite RN in Ie. exists e. split; [exact Ie|].
  pose proof (AG Par rl I2) as A. cbn [gen_rule] in A. rewrite A in GP. clear A.
  assert (S1 : stored (plug (shape g) G') (block_rules bs) (rexpr rl) e).
  { refine (stored_ext _ S0). unfold plug, expr_of. cbn [exprs]. intros i e0 E0. rewrite nth_error_app1; [exact E0|apply nth_error_Some; congruence]. }
  split.
  - intros CL. rewrite (parser_refs COH GP). unfold rule_refs. destruct (is_unit _ _); [reflexivity|]. exact (last_tree CL _ Par S1 false false).
  - intros CA cp HC. refine (parser_moves COH GP _ HC). unfold rule_moves. destruct (is_unit _ _); [reflexivity|]. exact (apart_tree CA _ Par S1 true).
Qed.

(** On a typed arena ([coherent]: see CompileShape.v). *)
Theorem C53_recognizer_refs : forall G rl f, gen_recognizer G rl = COk f -> (refs_ok f = true <-> rule_refs G Rec rl = true).
Proof. intros G rl f H. rewrite (recognizer_refs H). reflexivity. Qed.
Theorem C53_parser_refs : forall G rl f, coherent G -> gen_parser G rl = COk f -> (refs_ok f = true <-> rule_refs G Par rl = true).
Proof. intros G rl f HC H. rewrite (parser_refs HC H). reflexivity. Qed.
Theorem C53_parser_moves_partial : forall G rl f cp, coherent G -> gen_parser G rl = COk f -> rule_moves G rl = true -> chars_copy cp f -> moves_ok cp f = true.
Proof. exact parser_moves. Qed.

(** The conditions on the source, without the arena. *)
Lemma quiet_fits : forall t p h st, no_choice t = true -> t_fits p h st t = true.
Proof.
  induction t as [s| |a b c|q|l IHl|l IHl|t IH|t IH|t IH|t IH|t IH|t b q IH|t ty IH|t IH|t IH] using tree_ind'; intros p h st NC; cbn [no_choice] in NC; try discriminate NC; cbn [t_fits]; auto.
  revert p h st. generalize t_reaches as re. intros re. induction l as [|t l IH]; intros p h st; [reflexivity|]. inversion IHl as [|? ? Ht IHl']; subst. cbn [forallb] in NC. apply andb_true_iff in NC. destruct NC as [N1 N2].
  cbn [seq_fits]. destruct l; [apply Ht, N1|]. rewrite (IH IHl' N2), (Ht _ _ _ N1). reflexivity.
Qed.
Theorem C53_choices_last_fit : forall t, choices_last t = true -> forall h st, t_fits false h st t = true.
Proof.
  induction t as [s| |a b c|q|l IHl|l IHl|t IH|t IH|t IH|t IH|t IH|t b q IH|t ty IH|t IH|t IH] using tree_ind'; intros NC h st; cbn [choices_last] in NC; cbn [t_fits]; auto.
  - revert h st. generalize t_reaches as re. intros re. induction l as [|t l IH]; intros h st; [reflexivity|]. inversion IHl as [|? ? Ht IHl']; subst.
    cbn [seq_fits]. destruct l; [apply Ht, NC|]. apply andb_true_iff in NC. destruct NC as [N1 N2]. rewrite (IH IHl' N2), (quiet_fits _ _ _ N1). reflexivity.
  - cbn [andb negb]. revert h st. induction l as [|t l IH]; intros h st; [reflexivity|]. inversion IHl as [|? ? Ht IHl']; subst. cbn [forallb] in NC. apply andb_true_iff in NC. destruct NC as [N1 N2].
    cbn [alt_fits]. destruct l; [apply Ht, N1|]. rewrite (Ht N1). apply IH; assumption.
Qed.

(** ---------------- concrete cases ---------------- *)
Local Notation toy_oak := (oak toy_type toy_item toy_return toy_generics 100).
Definition strs (n : N) : tree := XStr [n].
(** [r = "a" ("b" / "c") "d" / "e"]: the closure for "d" ends with [branch = false] on a parameter [branch: &mut bool]. *)
Definition flag_tree : tree := XAlt [XSeq [strs 97%N; XAlt [strs 98%N; strs 99%N]; strs 100%N]; strs 101%N].
Definition flag_source : list (list (list string) * source) := [([], SRule "r" None flag_tree)].
(** [r = v ("+" / "-")], [v = .*]: both branches end with [state.success(v)]. *)
Definition twice_tree : tree := XSeq [XCall ["v"]; XAlt [strs 43%N; strs 45%N]].
Definition twice_source : list (list (list string) * source) := [([], SRule "r" None twice_tree); ([], SRule "v" None (XStar XAny))].

(** The macro accepts both, rustc does not. *)
Theorem C53_refs_refuted : exists m f, toy_oak (print_grammar toy_toks flag_source) = WOk (Some m) /\ prog_of m Rec "r" = Some f /\ refs_ok f = false /\ flags_fit flag_tree = false.
Proof. eexists. eexists. split; [vm_compute; reflexivity|]. split; [vm_compute; reflexivity|]. split; vm_compute; reflexivity. Qed.
Theorem C53_moves_refuted : exists m f, toy_oak (print_grammar toy_toks twice_source) = WOk (Some m) /\ prog_of m Par "r" = Some f /\ refs_ok f = true /\
  moves_ok (fun n => mem n (func_chars f)) f = false.
Proof. eexists. eexists. split; [vm_compute; reflexivity|]. split; [vm_compute; reflexivity|]. split; vm_compute; reflexivity. Qed.
(** [r = v !("a" / "b") "c"]: the predicate needs no value, yet its choice gives [v] to a closure twice. *)
Definition pred_source : list (list (list string) * source) :=
  [([], SRule "r" None (XSeq [XCall ["v"]; XNot (XAlt [strs 97%N; strs 98%N]); strs 99%N])); ([], SRule "v" None (XStar XAny))].
Theorem C53_predicate_moves_refuted : exists m f, toy_oak (print_grammar toy_toks pred_source) = WOk (Some m) /\ prog_of m Par "r" = Some f /\
  moves_ok (fun n => mem n (func_chars f)) f = false.
Proof. eexists. eexists. split; [vm_compute; reflexivity|]. split; vm_compute; reflexivity. Qed.

(** A choice that something follows is fine outside of other choices: [r = "a" ("b" / "c") "d"]. *)
Example C53_case_fits : flags_fit (XSeq [strs 97%N; XAlt [strs 98%N; strs 99%N]; strs 100%N]) = true /\ choices_last (XSeq [strs 97%N; XAlt [strs 98%N; strs 99%N]; strs 100%N]) = false.
Proof. split; reflexivity. Qed.
(** The conditions on parsers hold of the grammar of sums. *)
Example C53_case : let bs := map (fun q => meaning (snd q)) sum_source in forallb (fun q => choices_last (snd q) && choices_apart (snd q)) (block_rules bs) = true.
Proof. vm_compute. reflexivity. Qed.

Print Assumptions C53_recognizers.
Print Assumptions C53_parsers_partial.
Print Assumptions C53_recognizer_refs.
Print Assumptions C53_parser_refs.
Print Assumptions C53_parser_moves_partial.
Print Assumptions C53_choices_last_fit.
Print Assumptions C53_refs_refuted.
Print Assumptions C53_moves_refuted.
Print Assumptions C53_predicate_moves_refuted.
