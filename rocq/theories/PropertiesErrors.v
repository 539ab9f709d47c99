(** Property theorems about the errors of the analysis phase (C60).

    [middle_errors] (Errors.v): the errors emitted; [middle] (Analysis.v): the result of the phase.  [tmatches rs X (TE t) s r]
    (TreeSpec.v): Ford's semantics of the tree [t], where [X] stands for the rules of elsewhere; [part rs t] (TreeWf.v): [t] is
    part of a rule; [stored G rs i t] (TreeFacts.v): the expression [i] of the grammar is the tree [t]; [empties], [rule_calls_first]
    (TreeWf.v): may succeed without consuming; may call before consuming; [closed R c] (WfDiag.v): [c] is a cycle of [R]. *)
From Coq Require Import Ascii Permutation Relations.
From Verif Require Import Base Utf8 Stream ParseState RuntimeFacts Grammar PegSpec Target Compile
  PegFacts Running WellFormed WfFacts WfSound WfSyntax WfTerm WfFuel WfExact WfDiag PegRun Behave CharClass
  Analysis AnalysisFacts PropertiesWf PropertiesPeg PropertiesGen PropertiesAnalysis Typing SumGrammar Front FrontFacts FrontSpec FrontSound FrontRound FrontGrammar PropertiesFront TreeSpec TreeFacts TreeWf Literals Pipeline
  MiddleFuel PropertiesMain RType Oak OakFacts PropertiesOak PropertiesVerdict Errors.
From Verif Require PropertiesParsers.
Set Implicit Arguments. Unset Strict Implicit.
Open Scope string_scope. Open Scope nat_scope. Open Scope list_scope.

(** ---------------- specification ---------------- *)
(** Two of the items have the name [n]. *)
Definition twice (n : string) (names : list string) : Prop := exists l1 l2 l3, names = l1 ++ n :: l2 ++ n :: l3.
(** The expression at [i] is [t], or the unit ascription that stands around the operand [t] of a range. *)
Definition located (G : grammar) (rs : list (string * tree)) (i : nat) (t : tree) : Prop :=
  part rs t /\ (stored G rs i t \/ exists j, expr_of G i = Some (EAsc j (IRegular TUnit)) /\ stored G rs j t).
Definition functional (X : list string -> text -> option text -> Prop) : Prop := forall p s r r', X p s r -> X p s r' -> r = r'.
(** What a message says of the expression it points to. *)
Definition true_defect (G : grammar) (rs : list (string * tree)) (d : diag) : Prop :=
  match d with
  | DNever i => (* will never succeed *)
      exists t, located G rs i t /\ forall X s s', ~ tmatches rs X (TE t) s (Some s')
  | DAlways i => (* will always succeed without consuming any input *)
      exists t, located G rs i t /\ forall X s r, tmatches rs X (TE t) s r -> r = Some s
  | DBranch i j => (* some branches cannot be reached; branch always succeeding *)
      exists l1 t l2, located G rs i (XAlt (l1 ++ t :: l2)) /\ located G rs j t /\ l2 <> [] /\
        (forall X s, ~ tmatches rs X (TE t) s None) /\
        forall X l s r, tmatches rs X (TE (XAlt (l1 ++ t :: l2))) s r <-> tmatches rs X (TE (XAlt (l1 ++ t :: l))) s r
  | DLoop i => (* will never stop because the sub-expression does not consume input *)
      exists t u, (t = XStar u \/ t = XPlus u) /\ located G rs i t /\ empties rs u /\
        forall X s, functional X -> tmatches rs X (TE u) s (Some s) -> forall r, ~ tmatches rs X (TE t) s r
  | DLeft c => (* the following rule cycle does not consume any input *)
      closed (rule_calls_first rs) c
  end.
(** [rs]: the first definition of each rule. *)
Definition true_error (bs : list block) (G : grammar) (rs : list (string * tree)) (e : error) : Prop :=
  match e with
  | NoRule => block_rules bs = []
  | DupRule n => twice n (map fst (block_rules bs))
  | DupFun n => twice n (map fst (functions (block_items bs)))
  | Defect d => true_defect G rs d
  end.

(** ---------------- the meaning of the syntactic conditions ---------------- *)
Section Meaning.
Variable rs : list (string * tree).
Variable X : list string -> text -> option text -> Prop.
Notation tm := (tmatches rs X).
Lemma star_never t s r : tm (TStar t) s r -> r <> None.
Proof. intros H. remember (TStar t) as it eqn:E. revert E. induction H; intros E; try discriminate E; injection E as ->; [discriminate|auto]. Qed.
Lemma alt_fails l : forall s, tm (TAlt l) s None -> forall t, In t l -> tm (TE t) s None.
Proof. induction l as [|u l IH]; intros s H t []; inversion H; subst; auto. Qed.
Lemma succeeds_true t : succeeds rs t -> forall s, ~ tm (TE t) s None.
Proof.
  intros H. pattern t, H. apply succeeds_mut with (P0 := fun l _ => forall s, ~ tm (TSeq l) s None); clear t H.
  - intros s M. inversion M; subst. match goal with N : forall rest, s <> _ |- _ => exact (N s eq_refl) end.
  - intros p t C _ IH s M. inversion M; subst; [|congruence]. assert (t0 = t) as -> by congruence. exact (IH s ltac:(assumption)).
  - intros l _ IH s M. inversion M; subst. exact (IH s ltac:(assumption)).
  - intros l t I0 _ IH s M. inversion M; subst. exact (IH s (alt_fails ltac:(eassumption) I0)).
  - intros t s M. inversion M; subst. exact (star_never ltac:(eassumption) eq_refl).
  - intros t s M. inversion M.
  - intros t _ IH s M. inversion M; subst; [exact (star_never ltac:(eassumption) eq_refl)|exact (IH s ltac:(assumption))].
  - intros t _ IH s M. inversion M; subst. exact (IH s ltac:(assumption)).
  - intros t u T _ IH s M. destruct t; try discriminate T; injection T as ->; inversion M; subst; exact (IH s ltac:(assumption)).
  - intros s M. inversion M.
  - intros t l _ IH _ IHl s M. inversion M; subst; [exact (IHl _ ltac:(eassumption))|exact (IH s ltac:(assumption))].
Qed.
Lemma idles_true t : idles rs t -> forall s s', tm (TE t) s (Some s') -> s' = s.
Proof.
  assert (ST : forall t, (forall s s', tm (TE t) s (Some s') -> s' = s) -> forall s r, tm (TStar t) s r -> forall s', r = Some s' -> s' = s).
  { intros u IH s r M. remember (TStar u) as it eqn:E. revert E. induction M; intros E s' Q; try discriminate E; injection E as ->; [congruence|].
    rewrite (IHM2 eq_refl s' Q). apply IH. assumption. }
  intros H. pattern t, H. apply idles_mut with (P0 := fun l _ => (forall s s', tm (TSeq l) s (Some s') -> s' = s) /\ (forall s s', tm (TAlt l) s (Some s') -> s' = s)); clear t H.
  - intros t s s' M. inversion M; subst. reflexivity.
  - intros t s s' M. inversion M; subst. reflexivity.
  - intros p t C _ IH s s' M. inversion M; subst; [|congruence]. assert (t0 = t) as -> by congruence. auto.
  - intros l _ [IH _] s s' M. inversion M; subst. auto.
  - intros l _ [_ IH] s s' M. inversion M; subst. auto.
  - intros t _ IH s s' M. inversion M; subst. exact (ST t IH s _ ltac:(eassumption) s' eq_refl).
  - intros t _ IH s s' M. inversion M; subst. rewrite (ST t IH _ _ ltac:(eassumption) s' eq_refl). auto.
  - intros t _ IH s s' M. inversion M; subst; auto.
  - intros t u T _ IH s s' M. destruct t; try discriminate T; injection T as ->; inversion M; subst; auto.
  - split; intros s s' M; inversion M; subst. reflexivity.
  - intros t l _ IH _ [IHs IHa]. split; intros s s' M; inversion M; subst; auto. rewrite (IHs _ _ ltac:(eassumption)). auto.
Qed.
Lemma tmatches_det : functional X -> forall it s r, tm it s r -> forall r', tm it s r' -> r = r'.
Proof.
  intros FX it s r M.
  induction M; intros r' M'; inversion M'; subst; try reflexivity; try congruence;
    try match goal with H : _ ++ _ = _ ++ _ |- _ => apply app_inv_head in H; subst; reflexivity end;
    try (exfalso; match goal with N : forall rest, _ <> _ ++ rest |- _ => exact (N _ eq_refl) end);
    try contradiction;
    try match goal with A : rule_called rs ?p = Some ?a, B : rule_called rs ?p = Some ?b |- _ => assert (a = b) by congruence; subst end;
    try (match goal with IH : forall r', tm _ _ r' -> _ = r' |- _ => apply IH; assumption end);
    try solve [eapply FX; eassumption];
    try (match goal with IH : forall r', tm (TE ?t) ?s r' -> Some _ = r', M2 : tm (TE ?t) ?s _ |- _ => let Q := fresh in pose proof (IH _ M2) as Q; first [discriminate Q | injection Q as ->] end);
    try (match goal with IH : forall r', tm (TE ?t) ?s r' -> None = r', M2 : tm (TE ?t) ?s (Some _) |- _ => discriminate (IH _ M2) end); auto.
Qed.
Lemma loops_forever t : functional X -> forall s, tm (TE t) s (Some s) -> forall r, ~ tm (TStar t) s r.
Proof.
  intros FX s M r H. remember (TStar t) as it eqn:E. revert M E. induction H; intros M E; try discriminate E; injection E as ->.
  - discriminate (tmatches_det FX M H).
  - pose proof (tmatches_det FX M H) as Q. injection Q as <-. exact (IHtmatches2 M eq_refl).
Qed.
Lemma alt_cut l1 t l2 l : (forall s, ~ tm (TE t) s None) -> forall s r, tm (TAlt (l1 ++ t :: l2)) s r -> tm (TAlt (l1 ++ t :: l)) s r.
Proof.
  intros N. induction l1 as [|u l1 IH]; cbn; intros s r M; inversion M; subst.
  - apply t_alt_first. assumption.
  - destruct (N s ltac:(assumption)).
  - apply t_alt_first. assumption.
  - apply t_alt_next; auto.
Qed.
End Meaning.

(** ---------------- the defects ---------------- *)
Section Arena.
Variable G : grammar.
Variable rs : list (string * tree).
Hypothesis RS : Forall2 (fun r q => rname r = fst q /\ stored G rs (rexpr r) (snd q)) (rules G) rs.
Hypothesis ND : NoDup (map fst rs).
Ltac same_exprs := repeat match goal with E : expr_of G ?i = Some ?a, E' : expr_of G ?i = Some ?b |- _ =>
   first [constr_eq a b; clear E' | rewrite E in E'; first [discriminate E' | injection E' as ?; subst]] end.
Lemma within_part t u : part rs t -> In u (operands t) -> part rs u.
Proof.
  intros (n & e & I0 & W) I1. exists n, e. split; [exact I0|]. clear I0. induction W as [t|t v w J _ IH]; [eapply wi_step; [exact I1|apply wi_refl]|]. eapply wi_step; [exact J|exact (IH I1)].
Qed.
Lemma chain_incl (A : Type) (P Q : A -> A -> Prop) : (forall a b, P a b -> Q a b) -> forall l x y, chain P x l y -> chain Q x l y.
Proof. intros H. induction l as [|z l IH]; cbn; intros x y C; [auto|]. destruct C as [C1 C2]. auto. Qed.
Lemma justified_true d : justified G d -> true_defect G rs d.
Proof.
  destruct d as [c|i|i|i|i j]; intros J; cbn in *.
  - destruct J as [J1 J2]. split; [exact J1|]. destruct c as [|x l]; [exact J2|]. eapply chain_incl; [|exact J2]. intros a b. apply (rule_first RS).
  - destruct J as (Ii & e & E & C). destruct (arena_part RS ND Ii) as (u & P & K). exists u. split; [split; assumption|]. destruct K as [S0|(k & E' & S0)]; [|congruence].
    inversion S0; subst; same_exprs. intros X s s' M. inversion M; subst. eapply succeeds_true; [eapply (succeeds_tree RS); eassumption|eassumption].
  - destruct J as (Ii & C & D). destruct (arena_part RS ND Ii) as (u & P & K). exists u. split; [split; assumption|].
    assert (Q : succeeds rs u /\ idles rs u).
    { destruct K as [S0|(k & E' & S0)]; [split; [exact (succeeds_tree RS C S0)|exact (idles_tree RS D S0)]|].
      inversion C; subst; same_exprs. inversion D; subst; same_exprs.
      match goal with U : _ \/ _ |- _ => destruct U as [U|[U|[U|[(? & ? & U)|[(? & U)|[U|U]]]]]]; try discriminate U; injection U as ? end.
      subst. split; [exact (succeeds_tree RS ltac:(eassumption) S0)|exact (idles_tree RS ltac:(eassumption) S0)]. }
    destruct Q as [Q1 Q2]. intros X s [s'|] M; [rewrite (idles_true Q2 M); reflexivity|destruct (succeeds_true Q1 M)].
  - destruct J as (Ii & e & E & C). destruct (arena_part RS ND Ii) as (u & P & K). destruct K as [S0|(k & E' & S0)]; [|destruct E; congruence].
    destruct E as [E|E]; inversion S0; subst; same_exprs.
    + eexists. eexists. split; [left; reflexivity|]. split; [split; [exact P|left; exact S0]|]. split; [eapply (empties_tree RS); eassumption|]. intros X s FX M r H. inversion H; subst. eapply loops_forever; eassumption.
    + eexists. eexists. split; [right; reflexivity|]. split; [split; [exact P|left; exact S0]|]. split; [eapply (empties_tree RS); eassumption|]. intros X s FX M r H. inversion H; subst.
      * match goal with M2 : tmatches _ _ _ s (Some _) |- _ => pose proof (tmatches_det FX M M2) as Q; injection Q as <- end. eapply loops_forever; eassumption.
      * match goal with M2 : tmatches _ _ _ s None |- _ => discriminate (tmatches_det FX M M2) end.
  - destruct J as (Ii & l1 & l2 & E & NE & C). destruct (arena_part RS ND Ii) as (u & P & K). destruct K as [S0|(k & E' & S0)]; [|congruence].
    inversion S0; subst; same_exprs. match goal with F : Forall2 _ _ _ |- _ => destruct (forall2_split F) as (k1 & u & k2 & -> & F1 & S1 & F2) end.
    pose proof (fun X s => succeeds_true (X := X) (succeeds_tree RS C S1) (s := s)) as N.
    exists k1, u, k2. split; [split; [exact P|left; exact S0]|]. split; [split; [|left; exact S1]|].
    { eapply within_part; [exact P|]. cbn. apply in_or_app. right. left. reflexivity. }
    split; [intros ->; inversion F2; subst; congruence|]. split; [exact N|]. intros X l s r. split; intros M; inversion M; subst; apply t_alt; eapply alt_cut; try eassumption; apply N.
Qed.
End Arena.

(** ---------------- duplicates ---------------- *)
Section Dup.
Variables (A : Type) (name : A -> string).
Lemma dup_in n : forall items kept, In n (dup_errors name items kept) <-> exists l1 a l2, items = l1 ++ a :: l2 /\ name a = n /\ (In n kept \/ In n (map name l1)).
Proof.
  induction items as [|a items IH]; intros kept; cbn [dup_errors].
  - split; [intros []|]. intros ([|] & ? & ? & E & _); discriminate E.
  - change (existsb (fun n0 => String.eqb n0 (name a)) kept) with (seenb (name a) kept). destruct (seenb (name a) kept) eqn:E.
    + apply seenb_in in E. cbn [In]. rewrite IH. split.
      * intros [<-|(l1 & b & l2 & -> & B & K)]; [exists [], a, items; auto|]. exists (a :: l1), b, l2. split; [reflexivity|]. split; [exact B|]. cbn. tauto.
      * intros ([|b l1] & c & l2 & Q & B & K); cbn in Q; injection Q as -> ->; [left; exact B|]. right. exists l1, c, l2. split; [reflexivity|]. split; [exact B|]. cbn in K. destruct K as [K|[K|K]]; [auto|left; rewrite <- K; exact E|auto].
    + assert (NI : ~ In (name a) kept) by (intros Z; apply seenb_in in Z; congruence). rewrite IH. split.
      * intros (l1 & b & l2 & -> & B & K). exists (a :: l1), b, l2. split; [reflexivity|]. split; [exact B|]. cbn. rewrite in_app_iff in K. cbn in K. tauto.
      * intros ([|b l1] & c & l2 & Q & B & K); cbn in Q; injection Q as -> ->; [subst; cbn in K; tauto|]. exists l1, c, l2. split; [reflexivity|]. split; [exact B|]. rewrite in_app_iff. cbn in *. tauto.
Qed.
Lemma dup_twice n items : In n (dup_errors name items []) <-> twice n (map name items).
Proof.
  rewrite dup_in. split.
  - intros (l1 & a & l2 & -> & <- & [[]|K]). rewrite map_app. cbn. apply in_split in K. destruct K as (k1 & k2 & ->). exists k1, k2, (map name l2). rewrite <- app_assoc. reflexivity.
  - intros (l1 & l2 & l3 & E). apply map_eq_app in E. destruct E as (i1 & i2 & -> & E1 & E2). apply map_eq_cons in E2. destruct E2 as (a & i3 & -> & E2 & E3).
    apply map_eq_app in E3. destruct E3 as (i4 & i5 & -> & E4 & E5). apply map_eq_cons in E5. destruct E5 as (b & i6 & -> & E5 & _).
    exists (i1 ++ a :: i4), b, i6. split; [rewrite <- app_assoc; reflexivity|]. split; [exact E5|]. right. rewrite map_app. cbn. rewrite E2. apply in_or_app. right. left. reflexivity.
Qed.
Lemma twice_nodup (names : list string) : NoDup names <-> forall n, ~ twice n names.
Proof.
  split.
  - intros ND n (l1 & l2 & l3 & ->). apply NoDup_remove_2 in ND. apply ND. rewrite !in_app_iff. cbn. auto.
  - induction names as [|a l IH]; intros H; constructor.
    + intros I0. apply in_split in I0. destruct I0 as (l2 & l3 & ->). apply (H a). exists [], l2, l3. reflexivity.
    + apply IH. intros n (l1 & l2 & l3 & ->). apply (H n). exists (a :: l1), l2, l3. reflexivity.
Qed.
Lemma dup_nodup items : dup_errors name items [] = [] <-> NoDup (map name items).
Proof.
  rewrite twice_nodup. split.
  - intros E n T. apply dup_twice in T. rewrite E in T. destruct T.
  - intros H. destruct (dup_errors name items []) as [|n l] eqn:E; [reflexivity|]. destruct (H n). apply dup_twice. rewrite E. left. reflexivity.
Qed.
End Dup.
Lemma firsts_both (A B : Type) (nA : A -> string) (nB : B -> string) (P : A -> B -> Prop) : (forall a b, P a b -> nA a = nB b) ->
  forall l l', Forall2 P l l' -> forall seen, Forall2 P (firsts nA l seen) (firsts nB l' seen).
Proof.
  intros H. induction 1 as [|a b l l' K _ IH]; intros seen; cbn [firsts]; [constructor|]. rewrite <- (H _ _ K). destruct (seenb (nA a) seen); [apply IH|constructor; [exact K|apply IH]].
Qed.

(** ---------------- C60 ---------------- *)
(** The errors of the phase, whatever the fuel, from some point on. *)
Definition errors_are (fg : fgrammar) (errs : list error) : Prop := exists N, forall fuel passes, N <= fuel -> N <= passes -> middle_errors fuel passes fg = WOk errs.
(** [G] is the grammar analysed for the rules [rs]. *)
Definition arena_of (G : grammar) (rs : list (string * tree)) : Prop := Forall2 (fun r q => rname r = fst q /\ stored G rs (rexpr r) (snd q)) (rules G) rs.

Lemma well_formed_nil : well_formed [].
Proof.
  assert (P : forall t, ~ part [] t) by (intros t (n & e & [] & _)).
  split; [|intros t [Q|Q]; destruct (P _ Q)|intros l1 t l2 Q; destruct (P _ Q)|intros t Q; destruct (P _ Q)|intros t Q; destruct (P _ Q)].
  intros id C. assert (K : exists b, rule_calls_first [] id b) by (revert C; generalize id at 2; intros y C; induction C; eauto). destruct K as (b & t & C0 & _). discriminate C0.
Qed.
Lemma emitted_stable G fuel passes ds : emitted G fuel passes = WOk ds -> forall f p, fuel <= f -> passes <= p -> emitted G f p = WOk ds.
Proof. intros H f p Lf Lp. unfold emitted in *. destruct (@upto_rules G fuel f passes p Lf Lp (wst_new G)) as [E|E]; [rewrite E in H; discriminate|rewrite E; exact H]. Qed.

Theorem errors_of : forall rust_type rust_item ts fg bs, parse_grammar rust_type rust_item ts = FOk fg ->
  f_items fg = block_items bs -> rules_at (f_exprs fg) (f_rules fg) (block_rules bs) ->
  exists errs G rs, errors_are fg errs /\ keeps_firsts fst (block_rules bs) rs /\ keeps_firsts rname (f_rules fg) (rules G) /\ arena_of G rs /\ Forall (true_error bs G rs) errs /\
    (In NoRule errs <-> block_rules bs = []) /\ (block_rules bs = [] -> errs = [NoRule]) /\
    (forall n, In (DupRule n) errs <-> twice n (map fst (block_rules bs))) /\
    (block_rules bs <> [] -> forall n, In (DupFun n) errs <-> twice n (map fst (functions (block_items bs)))) /\
    ((exists d, In (Defect d) errs) <-> ~ well_formed rs).
Proof.
  intros rt ri ts fg bs PA IT RA. pose proof (C38_parsed PA) as PD. pose proof (rules_names RA) as NM.
  set (kept := firsts rname (f_rules fg) []). set (rs := firsts fst (block_rules bs) []).
  assert (RK : rules_at (f_exprs fg) kept rs) by (apply (firsts_both (nA := rname) (nB := @fst string tree)); [intros a b [E _]; exact E|exact RA]).
  assert (NK : map rname kept = map fst rs) by (clear - RK; induction RK as [|a b l l' [E _] _ IH]; cbn; [reflexivity|congruence]).
  pose proof (firsts_keeps rname (f_rules fg)) as KF. fold kept in KF. pose proof (firsts_keeps (@fst string tree) (block_rules bs)) as KB. fold rs in KB.
  assert (AR : arena kept (f_exprs fg)).
  { destruct (pa_arena PD) as [O Hr]. split; [exact O|]. intros r I0. destruct (kf_first KF I0) as (l1 & l2 & E & _). apply Hr. rewrite E. apply in_or_app. right. left. reflexivity. }
  destruct (C31_resolution AR) as (es' & RE & _). pose proof (resolved_analysable AR (pa_calls PD) (pa_choice PD) [] (RE _ (le_n _))) as AN.
  pose proof (rules_resolved [] AR (RE _ (le_n _)) NK RK) as RS. set (G := mkG kept es' []) in *. pose proof (kf_distinct KB) as ND.
  destruct (analysis_total AN) as (b & Hb). assert (ED : exists ds, emitted G (fuel0 G) (3 * R G + 1) = WOk ds).
  { unfold is_well_formed, emitted in *. apply wbind_ok in Hb. destruct Hb as (st & Hb & _). rewrite Hb. eexists. reflexivity. }
  destruct ED as (ds & ED). destruct (all_told AN ED) as (JT & VD).
  assert (WF : ds <> [] <-> ~ well_formed rs).
  { rewrite <- (sane_iff RS ND), <- (accepted_iff_sane AN). split.
    - intros N (f & p & AC). pose proof (C24_one_verdict (G := G) (b1 := true) (b2 := false)) as OV. destruct ds; [congruence|]. assert (true = false) by (apply OV; [exists f, p; exact AC|eexists; eexists; exact VD]). discriminate.
    - intros N ->. apply N. eexists. eexists. exact VD. }
  assert (FN : flat_map fn_of (f_items fg) = functions (block_items bs)) by (rewrite IT; reflexivity).
  assert (JD : Forall (true_error bs G rs) (map Defect ds)) by (apply Forall_forall; intros e I0; apply in_map_iff in I0; destruct I0 as (d & <- & I0); apply (justified_true RS ND); rewrite Forall_forall in JT; exact (JT d I0)).
  assert (KP : map snd (fst (populate rname (f_rules fg) [] false)) = kept) by (rewrite populate_eq; cbn [fst app map]; apply snd_tagged).
  clearbody kept.
  destruct (f_rules fg) as [|r0 rs0] eqn:ER.
  { assert (EB : block_rules bs = []) by (destruct (block_rules bs); [reflexivity|discriminate NM]).
    exists [NoRule], G, rs. split; [exists 0; intros; unfold middle_errors; rewrite ER; reflexivity|]. split; [exact KB|]. split; [exact KF|]. split; [exact RS|]. split; [repeat constructor; exact EB|].
    split; [split; [auto|left; reflexivity]|]. split; [reflexivity|]. split; [rewrite EB; intros n; split; [intros [Z|[]]; discriminate Z|intros ([|] & ? & ? & Z); discriminate Z]|]. split; [intros Z; destruct (Z EB)|].
    unfold rs. rewrite EB. split; [intros (d & [Z|[]]); discriminate Z|intros Z; destruct (Z well_formed_nil)]. }
  assert (EB : block_rules bs <> []) by (intros Z; rewrite Z in NM; discriminate NM). rewrite <- ER in *.
  exists (map DupRule (dup_errors rname (f_rules fg) []) ++ map DupFun (dup_errors fst (flat_map fn_of (f_items fg)) []) ++ map Defect ds), G, rs.
  split.
  { exists (length (f_exprs fg) + fuel0 G + (3 * R G + 1)). intros fuel passes L1 L2. unfold middle_errors. rewrite KP. rewrite ER at 1. cbv zeta. rewrite RE by lia. cbn [wbind].
    fold G. rewrite (emitted_stable ED) by lia. reflexivity. }
  split; [exact KB|]. split; [exact KF|]. split; [exact RS|].
  assert (TR : forall n, In n (dup_errors rname (f_rules fg) []) <-> twice n (map fst (block_rules bs))) by (intros n; rewrite <- NM; apply dup_twice).
  assert (TF : forall n, In n (dup_errors fst (flat_map fn_of (f_items fg)) []) <-> twice n (map fst (functions (block_items bs)))) by (intros n; rewrite <- FN; apply dup_twice).
  split.
  { rewrite !Forall_app. split; [|split; [|exact JD]]; apply Forall_forall; intros e I0; apply in_map_iff in I0; destruct I0 as (n & <- & I0); cbn; [apply TR|apply TF]; exact I0. }
  assert (NN : forall (A : Type) (f : A -> error) l e, (forall a, f a <> e) -> ~ In e (map f l)) by (intros A f l e H I0; apply in_map_iff in I0; destruct I0 as (a & E & _); exact (H a E)).
  split.
  { split; [|intros Z; destruct (EB Z)]. rewrite !in_app_iff. intros [Z|[Z|Z]]; exfalso; revert Z; apply NN; discriminate. }
  split; [intros Z; destruct (EB Z)|]. split; [|split].
  - intros n. rewrite !in_app_iff, <- TR. split; [|intros Z; left; apply in_map; exact Z]. intros [Z|[Z|Z]]; [|exfalso; revert Z; apply NN; discriminate..].
    apply in_map_iff in Z. destruct Z as (m & E & Z). injection E as ->. exact Z.
  - intros _ n. rewrite !in_app_iff, <- TF. split; [|intros Z; right; left; apply in_map; exact Z]. intros [Z|[Z|Z]]; [exfalso; revert Z; apply NN; discriminate| |exfalso; revert Z; apply NN; discriminate].
    apply in_map_iff in Z. destruct Z as (m & E & Z). injection E as ->. exact Z.
  - rewrite <- WF. split.
    + intros (d & Z). rewrite !in_app_iff in Z. destruct Z as [Z|[Z|Z]]; [exfalso; revert Z; apply NN; discriminate..|]. intros ->. destruct Z.
    + intros Z. destruct ds as [|d ds']; [congruence|]. exists d. rewrite !in_app_iff. right. right. left. reflexivity.
Qed.
Lemma errors_settle fuel passes fg errs : middle_errors fuel passes fg = WOk errs -> errors_are fg errs.
Proof.
  intros H. exists (fuel + passes). intros f p L1 L2. rewrite <- H. apply TypingFuel.below_ok; [|rewrite H; discriminate]. unfold middle_errors. destruct (f_rules fg); [apply TypingFuel.below_refl|]. cbv zeta.
  apply TypingFuel.below_bind; [apply resolve_below; lia|]. intros es. apply TypingFuel.below_bind; [|intros; apply TypingFuel.below_refl]. unfold emitted. apply TypingFuel.below_bind; [apply visit_rules_below; lia|intros; apply TypingFuel.below_refl].
Qed.
Lemma errors_same fg e1 e2 : errors_are fg e1 -> errors_are fg e2 -> e1 = e2.
Proof. intros (N1 & H1) (N2 & H2). specialize (H1 (N1 + N2) (N1 + N2) ltac:(lia) ltac:(lia)). rewrite H2 in H1 by lia. injection H1 as ->. reflexivity. Qed.

(** The phase always tells its errors, and each of them is true. *)
Theorem C60_errors_true : forall rust_type rust_item, reads rust_type -> reads rust_item ->
  forall ts attrs bs, read_as rust_type rust_item ts attrs bs -> exists fg errs G rs, parse_grammar rust_type rust_item ts = FOk fg /\ errors_are fg errs /\
    keeps_firsts fst (block_rules bs) rs /\ keeps_firsts rname (f_rules fg) (rules G) /\ arena_of G rs /\ Forall (true_error bs G rs) errs.
Proof.
  intros rt ri RT RI ts attrs bs (D & fg & PA & _ & IT & RA). destruct (errors_of PA IT RA) as (errs & G & rs & E1 & E2 & E3 & E4 & E5 & _). exists fg, errs, G, rs. auto 8.
Qed.
(** All duplicates are told; a defect is told when there is one; and nothing is told exactly when the source is accepted. *)
Theorem C60_errors_complete : forall rust_type rust_item, reads rust_type -> reads rust_item ->
  forall ts attrs bs fg errs, read_as rust_type rust_item ts attrs bs -> parse_grammar rust_type rust_item ts = FOk fg -> errors_are fg errs ->
    (block_rules bs = [] -> errs = [NoRule]) /\
    (forall n, In (DupRule n) errs <-> twice n (map fst (block_rules bs))) /\
    (block_rules bs <> [] -> forall n, In (DupFun n) errs <-> twice n (map fst (functions (block_items bs)))) /\
    (forall rs, keeps_firsts fst (block_rules bs) rs -> ((exists d, In (Defect d) errs) <-> ~ well_formed rs)).
Proof.
  intros rt ri RT RI ts attrs bs fg errs (D & fg' & PA & _ & IT & RA) PA' EA. assert (fg' = fg) as -> by congruence.
  destruct (errors_of PA IT RA) as (errs' & G & rs & E1 & E2 & E3 & E4 & E5 & E6 & E7 & E8 & E9 & E10). assert (errs' = errs) as -> by (eapply errors_same; eassumption).
  split; [exact E7|]. split; [exact E8|]. split; [exact E9|]. intros rs' K. rewrite E10.
  assert (P : Permutation rs rs').
  { assert (IN : forall l l', keeps_firsts fst (block_rules bs) l -> keeps_firsts fst (block_rules bs) l' -> forall q, In q l -> In q l').
    { intros l l' K1 K2 q I0. destruct (kf_first K1 I0) as (l1 & l2 & EQ & N1). assert (Iq : In q (block_rules bs)) by (rewrite EQ; apply in_or_app; right; left; reflexivity).
      pose proof (kf_cover K2 Iq) as C. apply in_map_iff in C. destruct C as (q' & EN & I1). destruct (kf_first K2 I1) as (k1 & k2 & EQ' & N2). clear - EQ EQ' EN N1 N2 I1.
      assert (q' = q) as <-; [|exact I1]. rewrite EQ in EQ'. clear EQ I1. revert k1 EQ' N2. induction l1 as [|a l1 IH]; intros [|b k1] E N2; cbn in *.
      - injection E as -> _. reflexivity.
      - injection E as -> _. destruct N2. left. congruence.
      - injection E as -> _. destruct N1. left. congruence.
      - injection E as -> E. eapply IH; [tauto|exact E|tauto]. }
    apply NoDup_Permutation; [eapply NoDup_map_inv; exact (kf_distinct E2)|eapply NoDup_map_inv; exact (kf_distinct K)|]. intros q. split; apply IN; assumption. }
  split; intros N W; apply N; [eapply well_formed_permuted; [exact (kf_distinct K)|exact (Permutation_sym P)|exact W]|eapply well_formed_permuted; [exact (kf_distinct E2)|exact P|exact W]].
Qed.
Theorem C60_errors_verdict : forall rust_type rust_item, reads rust_type -> reads rust_item ->
  forall ts attrs bs fg errs, read_as rust_type rust_item ts attrs bs -> parse_grammar rust_type rust_item ts = FOk fg -> errors_are fg errs ->
    (errs = [] <-> sound_source bs) /\ (errs = [] -> exists g, middle_answers fg (Some g)) /\ (errs <> [] -> middle_answers fg None).
Proof.
  intros rt ri RT RI ts attrs bs fg errs RD PA EA. pose proof (C60_errors_complete RT RI RD PA EA) as (E1 & E2 & E3 & E4). pose proof RD as (D & fg' & PA' & _ & IT & RA). assert (fg' = fg) as -> by congruence.
  assert (KS : NoDup (map fst (block_rules bs)) -> keeps_firsts fst (block_rules bs) (block_rules bs)).
  { intros ND. pose proof (firsts_keeps (@fst string tree) (block_rules bs)) as K. rewrite (firsts_all (name := @fst string tree)) in K; [exact K|]. apply repeats_nodup. exact ND. }
  assert (I0 : errs = [] <-> sound_source bs).
  { split.
    - intros E. assert (NB : block_rules bs <> []) by (intros Z; rewrite (E1 Z) in E; discriminate E). split; [exact NB|].
      assert (ND : NoDup (map fst (block_rules bs))) by (apply twice_nodup; intros n T; apply E2 in T; rewrite E in T; destruct T). split; [exact ND|].
      split; [apply twice_nodup; intros n T; apply (E3 NB) in T; rewrite E in T; destruct T|]. destruct (verdict_of PA IT RA) as [[S0 _]|[NS _]]; [apply S0|]. 
      destruct (errors_of PA IT RA) as (errs' & G & rs & EA' & KB & _ & AO & _ & _ & _ & _ & _ & W). assert (errs' = errs) as -> by (eapply errors_same; eassumption).
      specialize (E4 _ (KS ND)). pose proof (rules_names RA) as NM.
      (* the verdict is decidable *)
      pose proof (C38_parsed PA) as PD. destruct (C31_resolution (pa_arena PD)) as (es' & RE & _). specialize (RE _ (le_n _)).
      pose proof (resolved_analysable (pa_arena PD) (pa_calls PD) (pa_choice PD) [] RE) as AN. destruct (analysis_total AN) as (b & Hb).
      pose proof (rules_resolved [] (pa_arena PD) RE NM RA) as RS. apply (sane_iff RS ND). apply (accepted_iff_sane AN).
      destruct b; [eexists; eexists; exact Hb|]. exfalso. assert (NW : ~ well_formed (block_rules bs)).
      { intros WF. apply (sane_iff RS ND) in WF. apply (accepted_iff_sane AN) in WF. assert (false = true) by (eapply C24_one_verdict; [eexists; eexists; exact Hb|exact WF]). discriminate. }
      apply E4 in NW. destruct NW as (d & I1). rewrite E in I1. destruct I1.
    - intros (S1 & S2 & S3 & S4). destruct errs as [|e errs]; [reflexivity|]. exfalso. destruct (C60_errors_true RT RI RD) as (fg' & errs' & G & rs & PA2 & EA' & _ & _ & _ & TE). assert (fg' = fg) as -> by congruence.
      assert (errs' = e :: errs) as -> by (eapply errors_same; eassumption). apply Forall_inv in TE. destruct e as [|n|n|d]; cbn in TE.
      + exact (S1 TE).
      + exact (proj1 (twice_nodup _) S2 n TE).
      + exact (proj1 (twice_nodup _) S3 n TE).
      + apply (proj1 (E4 _ (KS S2))); [exists d; left; reflexivity|exact S4]. }
  split; [exact I0|]. split.
  - intros E. apply I0 in E. destruct (verdict_of PA IT RA) as [[_ V]|[NS _]]; [exact V|destruct (NS E)].
  - intros N. destruct (verdict_of PA IT RA) as [[S0 _]|[_ V]]; [apply I0 in S0; contradiction|exact V].
Qed.

(** ---------------- the messages are conservative ---------------- *)
(** "will never stop" and "does not consume any input" are judged from the shape of the expressions, hence not always so. *)
Definition B := XStr [98%N].
Definition sources (l : list (string * tree)) : list (list (list string) * source) := map (fun q => ([], SRule (fst q) None (snd q))) l.
Definition source_blocks (l : list (string * tree)) : list block := map (fun q => meaning (snd q)) (sources l).
(** Never true, never consuming. *)
Definition void_test : tree := XSeq [XAnd A; XNot A].
Lemma void_fails rs X s : tmatches rs X (TE void_test) s None.
Proof.
  apply t_seq. destruct s as [|c s]; [|destruct (N.eq_dec c 97) as [-> |N0]].
  - apply t_seq_fail, t_and_fail, t_str_fail. intros r E. discriminate E.
  - eapply t_seq_cons; [apply (@t_and_ok _ _ A (97%N :: s) s), (t_str_ok _ _ [97%N])|]. apply t_seq_fail. apply (@t_not_fail _ _ A (97%N :: s) s), (t_str_ok _ _ [97%N]).
  - apply t_seq_fail, t_and_fail, t_str_fail. intros r E. injection E as -> _. exact (N0 eq_refl).
Qed.
Lemma sources_canon l : Forall (fun q => canon toy_type toy_toks (snd q)) l -> Forall (canon_block toy_type toy_item toy_toks) (sources l).
Proof. intros F. apply Forall_forall. intros q I0. apply in_map_iff in I0. destruct I0 as ((n & t) & <- & I0). rewrite Forall_forall in F. split; [constructor|exact (F _ I0)]. Qed.
(** What is told of a source. *)
Definition told_of (l : list (string * tree)) (items : list (list (list string) * source)) (errs : list error) : Prop :=
  exists fg, parse_grammar toy_type toy_item (print_grammar toy_toks (sources l ++ items)) = FOk fg /\ errors_are fg errs /\
    read_as toy_type toy_item (print_grammar toy_toks (sources l ++ items)) [] (source_blocks l ++ map (fun q => meaning (snd q)) items).
Lemma told_intro l items errs : Forall (canon_block toy_type toy_item toy_toks) (sources l ++ items) -> flat_map fst (sources l ++ items) = [] ->
  match parse_grammar toy_type toy_item (print_grammar toy_toks (sources l ++ items)) with FOk fg => middle_errors 60 20 fg = WOk errs | _ => False end -> told_of l items errs.
Proof.
  intros C E M. pose proof (PropertiesParsers.C38_canonical_read (rust_type := toy_type) (rust_item := toy_item) (ty_toks := toy_toks) (fun r => eq_refl) C) as RD. rewrite map_app in RD.
  unfold told_of. destruct (parse_grammar toy_type toy_item (print_grammar toy_toks (sources l ++ items))) as [fg| |]; try contradiction. exists fg. split; [reflexivity|]. split; [exact (errors_settle M)|]. rewrite <- E. exact RD.
Qed.

Definition fn_f : list (list string) * source := ([], SItem [TKw "fn"; TId "f"; TGroup Paren []; TGroup Brace []] (RFn "f" "")).
Lemma fn_f_canon : canon_block toy_type toy_item toy_toks fn_f.
Proof. split; [constructor|]. cbn. split; [intros r; reflexivity|]. exists "fn", [TId "f"; TGroup Paren []; TGroup Brace []]. split; reflexivity. Qed.
Ltac told := apply told_intro; [apply Forall_app; split; [apply sources_canon; repeat apply Forall_cons; try apply Forall_nil; cbn; repeat split; try discriminate; try lia|repeat (apply Forall_cons; [exact fn_f_canon|]); apply Forall_nil]|reflexivity|vm_compute; reflexivity].
(** [r = (&"a" !"a")* "b"]: the star stops at once on every text. *)
Theorem C60_loop_refuted : told_of [("r", XSeq [XStar void_test; B])] [] [Defect (DLoop 5)] /\
  forall X s, tmatches [("r", XSeq [XStar void_test; B])] X (TE (XStar void_test)) s (Some s).
Proof.
  split.
  - told.
  - intros X s. apply t_star, t_star_stop, void_fails.
Qed.
(** [r = &"a" !"a" r / "b"]: the call is never reached; every text has an outcome. *)
Theorem C60_left_refuted : let r := XAlt [XSeq [XAnd A; XNot A; XCall ["r"]]; B] in told_of [("r", r)] [] [Defect (DLeft ["r"])] /\
  forall X s, exists o, tmatches [("r", r)] X (TE (XCall ["r"])) s o.
Proof.
  cbn zeta. split.
  - told.
  - intros X s. assert (F : tmatches [("r", XAlt [XSeq [XAnd A; XNot A; XCall ["r"]]; B])] X (TE (XSeq [XAnd A; XNot A; XCall ["r"]])) s None).
    { pose proof (void_fails [("r", XAlt [XSeq [XAnd A; XNot A; XCall ["r"]]; B])] X s) as V. inversion V as [| | | | | | | | |l s0 r0 V'| | | | | | | | | | | | | | | | | | | | | | ]; subst. apply t_seq.
      inversion V'; subst; [|apply t_seq_fail; assumption]. eapply t_seq_cons; [eassumption|].
      match goal with H : tmatches _ _ (TSeq [XNot A]) _ None |- _ => inversion H; subst end; [match goal with H : tmatches _ _ (TSeq []) _ None |- _ => inversion H end|apply t_seq_fail; assumption]. }
    assert (K : exists o, tmatches [("r", XAlt [XSeq [XAnd A; XNot A; XCall ["r"]]; B])] X (TE B) s o).
    { destruct s as [|c s]; [exists None; apply t_str_fail; intros r E; discriminate E|]. destruct (N.eq_dec c 98) as [-> |N0]; [exists (Some s); apply (t_str_ok _ _ [98%N])|].
      exists None. apply t_str_fail. intros r E. injection E as -> _. exact (N0 eq_refl). }
    destruct K as (o & K). exists o. eapply t_call; [reflexivity|]. apply t_alt, t_alt_next; [exact F|]. destruct o as [s'|]; [apply t_alt_first; exact K|apply t_alt_next; [exact K|apply t_alt_nil]].
Qed.

(** ---------------- concrete cases ---------------- *)
(** [r = .  r = "b"  fn f() {}  fn f() {}  s = !("a"?) "a" / "a"* / "b"]: two duplicates and two defects, all at once. *)
Example C60_many : told_of [("r", XAny); ("r", B); ("s", XAlt [XSeq [XNot (XOpt A); A]; XStar A; B])] [fn_f; fn_f]
  [DupRule "r"; DupFun "f"; Defect (DNever 4); Defect (DBranch 10 8)].
Proof. told. Qed.
Example C60_no_rule : told_of [] [fn_f; fn_f] [NoRule].
Proof. told. Qed.
(** [a = "a"? b / "b"   b = ("b"?) c   c = !"a" a]: the cycle a, b, c. *)
Example C60_cycle : told_of [("a", XAlt [XSeq [XOpt A; XCall ["b"]]; B]); ("b", XSeq [XOpt B; XCall ["c"]]); ("c", XSeq [XNot A; XCall ["a"]])] [] [Defect (DLeft ["a"; "b"; "c"])].
Proof. told. Qed.
(** [r = (!"a")? "a"] *)
Example C60_always : told_of [("r", XSeq [XOpt (XNot A); A])] [] [Defect (DAlways 2)].
Proof. told. Qed.
(** [r = ("a"?)+ "b"] *)
Example C60_plus : told_of [("r", XSeq [XPlus (XOpt A); B])] [] [Defect (DLoop 2)].
Proof. told. Qed.
Example C60_silent : told_of [("r", XSeq [XPlus A; B])] [fn_f] [].
Proof. told. Qed.

Print Assumptions C60_errors_true.
Print Assumptions C60_errors_complete.
Print Assumptions C60_errors_verdict.
Print Assumptions C60_loop_refuted.
Print Assumptions C60_left_refuted.
