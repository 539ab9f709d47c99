(** Property theorems about grammars that use the rules of each other (C51): modules [mod_1, ..., mod_n] of one program, each
    generated by the macro, that call the functions of each other by their paths. *)
From Coq Require Import Relations.
From Verif Require Import Base Utf8 Stream ParseState RuntimeFacts Grammar CharClass PegSpec Target Compile TargetFacts ScopeFacts
  CompileShape EvalRules CompileCorrect ScopeGen GenTotal PegFacts Running WellFormed WfFacts WfSound WfSyntax WfTerm WfFuel PegRun Behave
  Analysis AnalysisFacts PropertiesWf PropertiesPeg PropertiesAnalysis PropertiesGen Typing TypeRules SurfaceFacts RefFacts DepthFacts TypingSound TypingFit GenAgree TypingTop TypingVerdict
  TypingTotal TypingAnswer TypingFuel MiddleFuel PropertiesTyping Front FrontFacts FrontSpec FrontSound FrontRound FrontGrammar PropertiesFront Agree TreeSpec TreeFacts Literals Pipeline
  PropertiesMain PropertiesRules RType PropertiesSignature Oak OakFacts PropertiesOak PropertiesModule TreeValues TreeEp TreeWf PropertiesSource TreeKinds KindFacts KindTrees TreeNames PropertiesParsers Blind RecOnly Linking PropertiesLink SourceChecks Mutual MutualEnds.
Set Implicit Arguments. Unset Strict Implicit.
Open Scope string_scope. Open Scope nat_scope. Open Scope list_scope.

(** ---------------- a module does what its source says, whatever is outside ---------------- *)
Definition nothing : extern := fun _ _ _ r evs => r = None /\ evs = [].
Definition fails (m : mode) (p : list string) (st : pst) : outcome (pst * alog) := Done (mkPS (farthest_read st) (expected st) true (current st) None, []).
Lemma nothing_ok t : ext_ok nothing fails t.
Proof. intros m p s r evs Hs [-> ->] ei. exists (strm t s), None. reflexivity. Qed.
Lemma nothing_sane : ext_sane nothing.
Proof.
  split.
  - intros m p s r1 e1 r2 e2 [-> ->] [-> ->]. auto.
  - intros p s r evs [-> ->]. split; [reflexivity|discriminate].
  - intros p s r evs [-> ->]. split; reflexivity.
  - intros p s r evs _. exists None, []. split; reflexivity.
Qed.
Lemma nothing_consuming : ext_consuming (ford_ext nothing).
Proof.
  split; [intros p s; exists None, None, []; split; [split; reflexivity|reflexivity]|]. intros p s s1 (r & evs & [-> ->] & H). discriminate H.
Qed.

Section Lite.
Variables (G : grammar) (X : extern) (xf : mode -> list string -> pst -> outcome (pst * alog)) (t : text).
Hypothesis HA : arena_ok G.
Hypothesis HL : lits_ok G.
Hypothesis TX : scalars t.
Hypothesis XO : ext_ok X xf t.
Lemma lite_setting : setting G nothing fails t.
Proof. split; try assumption; [apply nothing_ok|apply nothing_sane]. Qed.
Lemma call_lite m id rl s r evs : mode_ok G m -> find_rule G id = Some rl -> suffix t s -> ep G X (off t) m (IE (rexpr rl)) s r evs -> forall ei,
  exists st, EvalRules.calls (gen_prog G) xf m (Local id) (run_at t s ei) (st, acts evs) /\ result_at t ei r evs st.
Proof.
  intros Mm F Hs H ei. pose proof lite_setting as HS. pose proof (prog_ok_mode HS Mm) as HP.
  assert (Rc : forall r evs, ep G X (off t) Rec (IE (rexpr rl)) s r evs -> exists st, EvalRules.calls (gen_prog G) xf Rec (Local id) (run_at t s ei) (st, acts evs) /\ result_at t ei r evs st).
  { intros r0 evs0 H0. pose proof (correct_code TX XO HL H0) as K. pose proof (fun_rec F Hs (funs_rec HS) K ei) as C.
    unfold result_at. destruct r0 as [[rest vs]|]; [destruct C as [-> C]; eexists; split; [exact C|reflexivity]|]. destruct C as [cur C]. eexists. split; [exact C|]. exists cur. reflexivity. }
  destruct m; [exact (Rc _ _ H)|]. destruct (is_unit G (rexpr rl)) eqn:U.
  - destruct (Rc _ _ (ep_unit_inv H U)) as (st & C & Fi). exists st. split; [|exact Fi]. pose proof (find_rule_in F) as [_ N].
    exists (mkFunc [] (CTail (rname rl))), []. split.
    + unfold gen_prog. rewrite F. simpl. unfold gen_parser. unfold is_unit in U. destruct (ty_of G (rexpr rl)) as [ty|]; [|discriminate]. rewrite U. reflexivity.
    + cbn [fclosures fbody fst snd]. apply ev_tail. rewrite N. exact C.
  - pose proof (correct_code TX XO HL H) as K. pose proof (fun_par F Hs HP U K ei) as C.
    unfold result_at. destruct r as [[rest vs]|]; [destruct C as [_ C]; eexists; split; [exact C|reflexivity]|]. destruct C as [cur C]. eexists. split; [exact C|]. exists cur. reflexivity.
Qed.
End Lite.

(** ---------------- every tree has a kind ---------------- *)
Lemma kind_from rs ret : forall t, (forall id, needs rs t id -> exists k, tkind rs ret (XCall [id]) k) -> exists k, tkind rs ret t k.
Proof.
  assert (L : forall l, Forall (fun t => (forall id, needs rs t id -> exists k, tkind rs ret (XCall [id]) k) -> exists k, tkind rs ret t k) l ->
    (forall t id, In t l -> needs rs t id -> exists k, tkind rs ret (XCall [id]) k) -> exists ks, tkinds rs ret l ks).
  { induction l as [|t l IH]; intros F H; [exists []; constructor|]. inversion F as [|? ? F1 F2]; subst. destruct F1 as (k & K); [intros id N; apply (H t id); [left; reflexivity|exact N]|].
    destruct (IH F2) as (ks & KS); [intros t0 id I0; apply H; right; exact I0|]. exists (k :: ks). constructor; assumption. }
  induction t using tree_ind'; intros H0.
  all: try (eexists; constructor; fail).
  all: try match goal with IH : _ -> exists k, tkind _ _ ?t k |- _ => destruct IH as (k & K); [intros id N; apply H0; constructor; exact N|]; eexists; econstructor; exact K end.
  - destruct (rule_called rs p) as [u|] eqn:R; [|exists KForeign; constructor; exact R]. destruct p as [|id [|? ?]]; try discriminate R. apply H0. econstructor. exact R.
  - destruct (L l H) as (ks & KS); [intros t id I0 N; apply H0; econstructor; eassumption|]. eexists. constructor. exact KS.
  - destruct (L l H) as (ks & KS); [intros t id I0 N; apply H0; econstructor; eassumption|]. eexists. constructor. exact KS.
Qed.
Lemma needs_rule rs t id : needs rs t id -> exists u, rule_called rs [id] = Some u.
Proof. induction 1; eauto. Qed.
Lemma settled_kinds rs ret : settled_types rs -> forall t, exists k, tkind rs ret t k.
Proof.
  intros (rk & apart & HA & HS). assert (BK : forall id u, rule_called rs [id] = Some u -> bare rs id -> exists k, tkind rs ret (XCall [id]) k) by (intros id u R B; exists KInv; exact (tk_bare _ R B)).
  assert (K : forall N id, rk id < N -> apart id = false -> forall u, rule_called rs [id] = Some u -> exists k, tkind rs ret (XCall [id]) k).
  { induction N as [|N IH]; intros id L AP u R; [lia|]. destruct (@kind_from rs ret u) as (k & K).
    - intros id' NE. destruct (needs_rule NE) as (u' & R'). destruct (HS id u id' (called_rule R) AP NE) as [[L' A']|[-> B]]; [apply (IH id' ltac:(lia) A' u' R')|exact (BK _ _ R B)].
    - exists k. exact (tk_call R K). }
  intros t. apply kind_from. intros id NE. destruct (needs_rule NE) as (u & R). destruct (apart id) eqn:A; [exact (BK id u R (HA id A))|]. exact (K (S (rk id)) id ltac:(lia) A u R).
Qed.
Lemma settled_voids rs ret t : settled_types rs -> (void rs ret t \/ ~ void rs ret t) /\ forall u, t = XNot u \/ t = XAnd u -> void rs ret t.
Proof.
  intros ST. split.
  - destruct (settled_kinds ret ST t) as (k & K). destruct (voidb k) eqn:V; [left; exists k; auto|]. right. intros (k' & K' & V'). rewrite (proj1 (tkind_det rs ret) _ _ K _ K') in V. congruence.
  - intros u [-> | ->]; exists KInv; (split; [constructor|reflexivity]).
Qed.

Definition rec_only (m : mode) : Prop := m = Rec.
Section Faithful.
Variables (rust_type : list tok -> option (string * list tok)) (rust_item : list tok -> option (rust_item * list tok)).
Variable return_type : string -> option string.
Variable generics : string -> string.
Hypothesis RT : reads rust_type.
Hypothesis RI : reads rust_item.
Variables (fuel : nat) (ts : list tok) (m : list mod_item).
Hypothesis H : oak rust_type rust_item return_type generics fuel ts = WOk (Some m).
Hypothesis LT : toks_strs scalars ts.
Variables (attrs : list (list string)) (bs : list block).
Hypothesis RD : read_as rust_type rust_item ts attrs bs.
Lemma faithful_rec void : faithful rec_only (prog_of m) (block_rules bs, void).
Proof.
  intros X xf t TX XO md n e -> In_ s r evs Hs T ei. cbn [fst snd] in *.
  destruct (source_env RT RI H RD) as (fg & g & G' & PA & MA & RA & TY & C & RE). destruct RD as (D & _).
  pose proof (grammar_strs D LT) as LIT. pose proof (module_ready PA MA TY RA LIT TX (nothing_ok (t := t)) nothing_sane nothing_consuming) as HR.
  destruct (rule_tree PA MA RA In_) as (rl & F & S0).
  assert (F' : find_rule G' n = Some rl) by (rewrite (found_rule_typed PA MA TY); exact F).
  assert (EP : ep G' X (off t) Rec (IE (rexpr rl)) s r evs) by (apply (tree_traces (typed_source PA MA TY RA) X (off t) void s r evs (typed_stored PA MA TY S0)); exact T).
  destruct (@call_lite G' X xf t (se_arena (rd_setting HR)) (se_lits (rd_setting HR)) TX XO Rec n rl s r evs I F' Hs EP ei) as (st & CA & RS). exists st. split; [|exact RS].
  destruct (calls_run CA) as (k & R). exists k. rewrite <- R. apply run_fn_ext. exact (content_prog C).
Qed.
Definition voids_of (bs : list block) : tree -> Prop := void (block_rules bs) (returned return_type (functions (block_items bs))).
Hypothesis ST : settled_types (block_rules bs).
Hypothesis PC : plain_choices (block_rules bs) (returned return_type (functions (block_items bs))).
Hypothesis NB : (forall n sg f, In (MParser n sg f) m -> no_unbound_name f) \/ (forall n e, In (n, e) (block_rules bs) -> tidy (voids_of bs) true e).
Lemma faithful_par : faithful (fun _ => True) (prog_of m) (block_rules bs, voids_of bs).
Proof.
  intros X xf t TX XO md n e _ In_ s r evs Hs T ei. cbn [fst snd] in *.
  destruct (source_env RT RI H RD) as (fg & g & G' & PA & MA & RA & TY & C & RE). destruct RD as (D & _).
  pose proof (grammar_strs D LT) as LIT. pose proof (C38_well_built PA MA) as WB.
  destruct (typed_shape PA MA TY) as (out & Q & LO). destruct (kinds_plain PA MA TY RA ST) as (rk & bad & HL & HBA & _).
  pose proof (rules_ok PA MA TY RA ST HBA) as HU.
  destruct (typed_coherent WB TY HL HU (choices_typed PA MA TY RA RE ST PC)) as (_ & COH & AG & _).
  assert (HN' : forall rl f, In rl (rules G') -> gen_rule G' Par rl = COk f -> no_unbound_name f).
  { destruct NB as [HN|TD]; [|intros rl f I0 GP; rewrite (AG Par rl) in GP by (rewrite <- (typed_rules PA MA TY); exact I0); exact (names_bound PA MA TY RA RE ST COH I0 TD GP)].
    intros rl f I0 GP. destruct (proj2 (content_parsers C) rl I0) as (sg & f' & I1 & GP' & _). cbn [gen_rule] in GP. assert (f' = f) as -> by congruence. exact (HN _ _ _ I1). }
  assert (MO : mode_ok (plug (shape g) G') Par).
  { split; [exact COH|]. intros rl f I1 GP. apply (HN' rl f); [rewrite Q in I1 |- *; exact I1|]. rewrite (AG Par rl); [exact GP|]. rewrite Q in I1. exact I1. }
  assert (MO' : mode_ok (plug (shape g) G') md) by (destruct md; [exact I|exact MO]).
  pose proof (plug_ready PA MA TY RA LIT TX (nothing_ok (t := t)) nothing_sane nothing_consuming) as HR.
  destruct (rule_tree PA MA RA In_) as (rl & F & S0). pose proof (root_low WB (proj1 (find_rule_in F))) as L.
  assert (F' : find_rule (plug (shape g) G') n = Some rl) by (rewrite Q; exact F).
  assert (AS : asked g G' (rexpr rl)) by (apply (asked_root PA MA TY); rewrite (typed_rules PA MA TY); exact (proj1 (find_rule_in F))).
  assert (EP : ep G' X (off t) md (IE (rexpr rl)) s r evs).
  { apply (source_values PA MA TY RA RE ST X (off t) (m := md) s r evs (or_intror AS) (typed_stored PA MA TY S0)). exact T. }
  assert (EP' : ep (plug (shape g) G') X (off t) md (IE (rexpr rl)) s r evs).
  { rewrite Q in EP |- *. unfold plug. cbn [rules exprs types].
    refine (@ep_agree (rules (shape g)) (exprs (shape g) ++ [ESpan 0]) (exprs (shape g) ++ [EAny]) out out (length (exprs (shape g))) _ _ (root_low WB) _ _ _ _ _ _ _ _ EP L).
    - intros i Li. rewrite !nth_error_app1 by exact Li. reflexivity.
    - intros i e0 Li Ei. rewrite nth_error_app1 in Ei by exact Li. exact (wb_children WB Ei).
    - reflexivity. }
  destruct (@call_lite (plug (shape g) G') X xf t (se_arena (rd_setting HR)) (se_lits (rd_setting HR)) TX XO md n rl s r evs MO' F' Hs EP' ei) as (st & CA & RS). exists st. split; [|exact RS].
  destruct (calls_run CA) as (k & R). exists k. rewrite <- R. apply run_fn_ext. intros m0 id. rewrite (content_prog C). exact (gen_plug PA MA TY m0 id).
Qed.
End Faithful.

(** ---------------- several modules ---------------- *)
Lemma outside_silent X xf t : outside X xf t -> silent X.
Proof. intros [_ _ XS _] p s r evs H. exact (xs_rec XS H). Qed.
Lemma outside_total X xf t m p s : outside X xf t -> exists r evs, X m p s r evs.
Proof.
  intros [_ _ XS XC]. destruct (ec_total XC p s) as (r & r' & evs & H & _). destruct m; [exists r', evs; exact H|exact (xs_both XS H)].
Qed.
Lemma outside_consumes X xf t m p s s1 vs evs : outside X xf t -> X m p s (Some (s1, vs)) evs -> length s1 < length s.
Proof.
  intros [_ _ XS XC] H. destruct m; [apply (ec_consume XC (p := p)); eexists _, evs; split; [exact H|reflexivity]|].
  apply (ec_consume XC (p := p)). eexists _, (only_errs evs). split; [exact (xs_par XS H)|reflexivity].
Qed.

Lemma tep_rec_void rs X o v v' m it s r evs : tep rs X o v m it s r evs -> m = Rec -> tep rs X o v' m it s r evs.
Proof.
  induction 1; intros MR; subst; try discriminate MR; cbn [valued] in *; try contradiction; try (econstructor; cbn [valued]; eauto; fail).
Qed.
Lemma acts_errs evs : only_errs evs = evs -> acts evs = [].
Proof.
  intros <-. induction evs as [|[p g|a vs] l IH]; [reflexivity|exact IH|exact IH].
Qed.

Section Several.
Variables (rust_type : list tok -> option (string * list tok)) (rust_item : list tok -> option (rust_item * list tok)).
Variable return_type : string -> option string.
Variable generics : string -> string.
Hypothesis RT : reads rust_type.
Hypothesis RI : reads rust_item.
(** The module [m], generated from a source of blocks [bs]. *)
Definition module_from (m : list mod_item) (bs : list block) : Prop :=
  exists fuel ts attrs, oak rust_type rust_item return_type generics fuel ts = WOk (Some m) /\ toks_strs scalars ts /\ read_as rust_type rust_item ts attrs bs.
(** Modules, with their paths and their sources. *)
Definition modules := list (list string * (list mod_item * list block)).
Definition sources (mods : modules) : list (list string * source) :=
  map (fun x => (fst x, (block_rules (snd (snd x)), void (block_rules (snd (snd x))) (returned return_type (functions (block_items (snd (snd x)))))))) mods.
Definition programs (mods : modules) : list (list string * (mode -> string -> option func)) := map (fun x => (fst x, prog_of (fst (snd x)))) mods.
(** The function [n] of the module [m] answers [st] on [t], calling the actions [log]: all runs of more than [K] steps. *)
Definition answers (mods : modules) xf0 (m : list mod_item) (md : mode) (n : string) (t : text) (st : pst) (log : alog) : Prop :=
  exists K, forall k, K <= k -> run_fn (prog_of m) (world (programs mods) xf0 k) k md n (Running.start t) = Done (st, log).
(** What the theorems about parsers need ([C56_parsers_partial]). *)
Definition parsers_fit (m : list mod_item) (bs : list block) : Prop :=
  let ret := returned return_type (functions (block_items bs)) in
  settled_types (block_rules bs) /\ plain_choices (block_rules bs) ret /\
  ((forall n sg f, In (MParser n sg f) m -> no_unbound_name f) \/ (forall n e, In (n, e) (block_rules bs) -> tidy (void (block_rules bs) ret) true e)).

Section Modules.
Variable mods : modules.
Hypothesis ND : NoDup (map fst mods).
Hypothesis MF : Forall (fun x => module_from (fst (snd x)) (snd (snd x))) mods.
Hypothesis ME : modules_end (sources mods).
Hypothesis LR : links_resolve (sources mods).
Variable md : mode -> Prop.
Hypothesis MD : md Rec.
Hypothesis FT : Forall (fun x => faithful md (prog_of (fst (snd x))) (block_rules (snd (snd x)), voids_of return_type (snd (snd x)))) mods.
Hypothesis VO : md Par -> Forall (fun x => settled_types (block_rules (snd (snd x)))) mods.
Variables (X0 : extern) (xf0 : mode -> list string -> pst -> outcome (pst * alog)) (t : text).
Hypothesis O : outside X0 xf0 t.
Hypothesis BX : blind xf0.
Lemma several path m bs n e mo : In (path, (m, bs)) mods -> In (n, e) (block_rules bs) -> md mo ->
  exists st r evs, answers mods xf0 m mo n t st (acts evs) /\
    (forall q evs', tep (block_rules bs) (across (sources mods) X0 (off t)) (off t) (voids_of return_type bs) mo (TE e) t q evs' <-> q = r /\ evs' = evs) /\
    final t mo r evs st /\ forall rest vs, r = Some (rest, vs) -> suffix t rest.
Proof.
  intros Im In_ Mm.
  assert (Is : In (path, (block_rules bs, voids_of return_type bs)) (sources mods)) by exact (in_map (fun x => (fst x, (block_rules (snd (snd x)), voids_of return_type (snd (snd x))))) _ _ Im).
  assert (Ip : In (path, prog_of m) (programs mods)) by exact (in_map (fun x => (fst x, prog_of (fst (snd x)))) _ _ Im).
  assert (NS : NoDup (map fst (sources mods))) by (unfold sources; rewrite map_map; exact ND).
  assert (FM : Forall2 (fun a b => fst a = fst b /\ faithful md (snd b) (snd a)) (sources mods) (programs mods)).
  { clear - FT. unfold sources, programs. induction FT as [|x l F FT' IH]; [constructor|]. cbn [map]. constructor; [split; [reflexivity|exact F]|exact (IH FT')]. }
  assert (XC : forall m p s s1 vs evs, X0 m p s (Some (s1, vs)) evs -> length s1 < length s) by (intros; eapply outside_consumes; eassumption).
  assert (XT : forall m p s, md m -> (forall a n, ~ member (sources mods) p a n) -> exists r evs, X0 m p s r evs) by (intros; eapply outside_total; eassumption).
  assert (VS : md Par -> voids_settled (sources mods)).
  { intros MP path0 rs0 void0 t0 I0 _. specialize (VO MP). apply in_map_iff in I0. destruct I0 as ([path1 [m1 bs1]] & Q & I0). cbn [fst snd] in Q. injection Q as <- <- <-.
    rewrite Forall_forall in VO. apply settled_voids. exact (VO _ I0). }
  assert (PE : part (block_rules bs) e) by (exists n, e; split; [exact In_|apply wi_refl]).
  destruct (@all_end (sources mods) X0 (off t) XC md MD XT ME LR VS t path (block_rules bs, voids_of return_type bs) e Is PE mo Mm) as (r & evs & T). cbn [fst snd] in T.
  destruct (module_runs (ou_text O) MD FM NS (ou_ext O) (outside_silent O) BX Is Ip In_ Mm T) as (K & st & F & SU & R).
  exists st, r, evs. split; [exists K; exact R|]. split; [|split; [exact F|exact SU]].
  assert (NR : Forall (fun x : list string * source => NoDup (map fst (fst (snd x)))) (sources mods)).
  { apply Forall_forall. intros x I0. unfold sources in I0. apply in_map_iff in I0. destruct I0 as ([path1 [m1 bs1]] & <- & I0). cbn [fst snd].
    rewrite Forall_forall in MF. destruct (MF _ I0) as (fuel & ts & attrs & H & LT & RD). exact (proj1 (C45_macro_read RT RI H LT RD)). }
  intros q evs'. split; [|intros [-> ->]; exact T]. intros T'.
  exact (tep_det (@across_det (sources mods) X0 (off t) NS NR (xs_det (ou_sane O))) T' T).
Qed.
End Modules.

(** Recognizers, with no condition on the types of the grammars. *)
Theorem C51_mutual_recognizers : forall mods, NoDup (map fst mods) -> Forall (fun x => module_from (fst (snd x)) (snd (snd x))) mods ->
  modules_end (sources mods) -> links_resolve (sources mods) ->
  forall X0 xf0 t, outside X0 xf0 t -> blind xf0 ->
  forall path m bs n e, In (path, (m, bs)) mods -> In (n, e) (block_rules bs) ->
  exists st r evs, answers mods xf0 m Rec n t st [] /\
    (forall void q evs', tep (block_rules bs) (across (sources mods) X0 (off t)) (off t) void Rec (TE e) t q evs' <-> q = r /\ evs' = evs) /\
    reports t evs st /\
    match r with Some (rest, _) => succeeded t st rest | None => is_failed st = true end.
Proof.
  intros mods ND MF ME LR X0 xf0 t O BX path m bs n e Im In_.
  assert (FT : Forall (fun x => faithful rec_only (prog_of (fst (snd x))) (block_rules (snd (snd x)), voids_of return_type (snd (snd x)))) mods).
  { apply Forall_forall. intros x I0. rewrite Forall_forall in MF. destruct (MF x I0) as (fuel & ts & attrs & H & LT & RD). exact (@faithful_rec _ _ _ _ RT RI _ _ _ H LT _ _ RD _). }
  destruct (@several mods ND MF ME LR rec_only eq_refl FT ltac:(discriminate) X0 xf0 t O BX path m bs n e Rec Im In_ eq_refl) as (st & r & evs & A & U & F & SU).
  assert (T : tep (block_rules bs) (across (sources mods) X0 (off t)) (off t) (voids_of return_type bs) Rec (TE e) t r evs) by (apply U; auto).
  pose proof (tep_silent (across_silent (outside_silent O)) T eq_refl) as [S1 _].
  exists st, r, evs. split; [|split; [|split; [exact (final_errors F)|]]].
  - rewrite (@acts_errs evs S1) in A. exact A.
  - intros void0 q evs'. rewrite <- U. split; intros T1; exact (tep_rec_void _ T1 eq_refl).
  - destruct r as [[rest vs]|]; cbn in F; [subst st; apply strm_succeeded; exact (SU _ _ eq_refl)|]. destruct F as [cur ->]. reflexivity.
Qed.

(** Missing: as in [C56_parsers_partial], for all the grammars. *)
Theorem C51_mutual_parsers_partial : forall mods, NoDup (map fst mods) -> Forall (fun x => module_from (fst (snd x)) (snd (snd x))) mods ->
  Forall (fun x => parsers_fit (fst (snd x)) (snd (snd x))) mods ->
  modules_end (sources mods) -> links_resolve (sources mods) ->
  forall X0 xf0 t, outside X0 xf0 t -> blind xf0 ->
  forall path m bs n e, In (path, (m, bs)) mods -> In (n, e) (block_rules bs) ->
  exists st log r evs, answers mods xf0 m Par n t st log /\
    (forall q evs', tep (block_rules bs) (across (sources mods) X0 (off t)) (off t) (void (block_rules bs) (returned return_type (functions (block_items bs)))) Par (TE e) t q evs' <-> q = r /\ evs' = evs) /\
    log = action_trace evs /\ reports t evs st /\
    match r with
    | Some (rest, vs) => succeeded t st rest /\ data st = Some (tup vs)
    | None => is_failed st = true /\ data st = None
    end.
Proof.
  intros mods ND MF PF ME LR X0 xf0 t O BX path m bs n e Im In_.
  assert (FT : Forall (fun x => faithful (fun _ => True) (prog_of (fst (snd x))) (block_rules (snd (snd x)), voids_of return_type (snd (snd x)))) mods).
  { apply Forall_forall. intros x I0. rewrite Forall_forall in MF, PF. destruct (MF x I0) as (fuel & ts & attrs & H & LT & RD). destruct (PF x I0) as (ST & PC & NB). exact (@faithful_par _ _ _ _ RT RI _ _ _ H LT _ _ RD ST PC NB). }
  assert (VO : (fun _ : mode => True) Par -> Forall (fun x => settled_types (block_rules (snd (snd x)))) mods).
  { intros _. apply Forall_forall. intros x I0. rewrite Forall_forall in PF. exact (proj1 (PF x I0)). }
  destruct (@several mods ND MF ME LR (fun _ => True) I FT VO X0 xf0 t O BX path m bs n e Par Im In_ I) as (st & r & evs & A & U & F & SU).
  exists st, (acts evs), r, evs. split; [exact A|]. split; [exact U|]. split; [reflexivity|]. split; [exact (final_errors F)|].
  destruct r as [[rest vs]|]; cbn in F; [subst st; split; [apply strm_succeeded; exact (SU _ _ eq_refl)|reflexivity]|]. destruct F as [cur ->]. split; reflexivity.
Qed.
End Several.

(** ---------------- a concrete case ---------------- *)
(** Two modules that call each other:
    [a]: [elem = "(" b::list ")" / ["0-9"]]        [b]: [list = a::elem ("," a::elem)* > number    fn number() {}] *)
Definition elem_source := [ (@nil (list string), SRule "elem" None (XAlt [XSeq [XStr [40%N]; XCall ["b"; "list"]; XStr [41%N]]; XClass false [Interval 48%N 57%N] false])) ].
Definition list_source := [ (@nil (list string), SRule "list" None (XAct (XSeq [XCall ["a"; "elem"]; XStar (XSeq [XStr [44%N]; XCall ["a"; "elem"]])]) false ["number"]));
  ([], SItem [TKw "fn"; TId "number"; TGroup Paren []; TGroup Brace []] (RFn "number" "")) ].
Example two_canon : Forall (canon_block toy_type toy_item toy_toks) elem_source /\ Forall (canon_block toy_type toy_item toy_toks) list_source.
Proof.
  split.
  - constructor; [split; [constructor|]|constructor]. cbn. repeat split; try discriminate; try lia. all: repeat (constructor; try discriminate).
  - constructor; [split; [constructor|]|constructor; [split; [constructor|]|constructor]]; cbn.
    + repeat split; try discriminate; try lia. all: repeat (constructor; try discriminate).
    + split; [intros r; reflexivity|]. exists "fn", [TId "number"; TGroup Paren []; TGroup Brace []]. split; reflexivity.
Qed.
Definition blocks_of (l : list (list (list string) * FrontGrammar.source)) : list block := map (fun q => meaning (snd q)) l.
Definition elem_rules := block_rules (blocks_of elem_source).
Definition list_rules := block_rules (blocks_of list_source).
Lemma within_inv t u : within t u -> t = u \/ exists v, In v (operands t) /\ within v u.
Proof. intros W. inversion W; subst; eauto. Qed.
Ltac split_in I0 v tac := lazymatch type of I0 with False => destruct I0 | _ => destruct I0 as [I0|I0]; [subst v; tac|split_in I0 v tac] end.
Ltac split_within H := apply within_inv in H; destruct H as [H|H]; [|let v := fresh "v" in let I0 := fresh "I0" in destruct H as (v & I0 & H); cbn [operands In] in I0; split_in I0 v ltac:(split_within H)].
Section Example.
Variables ma mb : list mod_item.
Definition two (ma mb : list mod_item) : modules := [(["a"], (ma, blocks_of elem_source)); (["b"], (mb, blocks_of list_source))].
Notation srcs := (sources toy_return (two ma mb)).
Lemma two_members p rs void n : member srcs p (rs, void) n -> p = ["a"; n] /\ rs = elem_rules \/ p = ["b"; n] /\ rs = list_rules.
Proof. intros (path & [Q|[Q|[]]] & ->); injection Q as <- <- _; auto. Qed.
Definition elem_body : tree := XAlt [XSeq [XStr [40%N]; XCall ["b"; "list"]; XStr [41%N]]; XClass false [Interval 48%N 57%N] false].
Definition list_body : tree := XAct (XSeq [XCall ["a"; "elem"]; XStar (XSeq [XStr [44%N]; XCall ["a"; "elem"]])]) false ["number"].
Lemma two_rules path rs void n e : In (path, (rs, void)) srcs -> In (n, e) rs -> rs = elem_rules /\ e = elem_body \/ rs = list_rules /\ e = list_body.
Proof. intros [Q|[Q|[]]] I0; injection Q as _ <- _; destruct I0 as [Q|[]]; injection Q as <- <-; auto. Qed.
Lemma no_str rs c l : ~ empty_in srcs rs (XStr (c :: l)).
Proof. intros E. inversion E; subst. discriminate. Qed.
Lemma seq_first rs t l q : ~ empty_in srcs rs t -> first_in srcs rs (XSeq (t :: l)) q -> first_in srcs rs t q.
Proof.
  intros NE F. inversion F as [|l1 u l2 q0 AE F1 Q| |t0 u q0 N1 N2]; subst; [|destruct (N1 _ eq_refl)]. destruct l1 as [|v l1]; cbn in Q; injection Q as -> _; [exact F1|]. inversion AE; subst. contradiction.
Qed.
Lemma seq_empty rs t l : ~ empty_in srcs rs t -> ~ empty_in srcs rs (XSeq (t :: l)).
Proof. intros NE E. inversion E as [| |? ? AE| | | | | | |? ? ? Q]; subst; [|discriminate Q]. inversion AE; subst. contradiction. Qed.
Lemma elem_first rs q : ~ first_in srcs rs elem_body q.
Proof.
  intros F. unfold elem_body in F. inversion F as [| |l t q0 I0 F1 Q|t0 u q0 N1 N2]; subst; [|destruct (N2 _ eq_refl)]. destruct I0 as [<-|[<-|[]]].
  - apply seq_first in F1; [|apply no_str]. inversion F1 as [| | |t0 u q0 N1 N2 I0]; subst. destruct I0.
  - inversion F1 as [| | |t0 u q0 N1 N2 I0]; subst. destruct I0.
Qed.
Lemma elem_not_empty rs : ~ empty_in srcs rs elem_body.
Proof.
  intros E. inversion E as [| | |rs0 l t I0 E1| | | | | |? ? ? Q]; subst; [|discriminate Q]. destruct I0 as [<-|[<-|[]]].
  - exact (seq_empty (@no_str _ _ _) E1).
  - inversion E1 as [| | | | | | | | |? ? ? Q]; subst. discriminate Q.
Qed.
Lemma call_elem rs rs' e : rule_called rs ["a"; "elem"] = None -> means srcs rs ["a"; "elem"] rs' e -> rs' = elem_rules /\ e = elem_body.
Proof.
  intros _ M. destruct M as [e R|rs' void' n e R M I1]; [discriminate R|]. destruct (two_members M) as [[Q ->]|[Q ->]]; [|discriminate Q]. destruct I1 as [Q'|[]]. injection Q' as _ <-. auto.
Qed.
Lemma call_not_empty rs : ~ empty_in srcs rs (XCall ["a"; "elem"]).
Proof.
  intros E. inversion E as [|? ? ? ? M E1| | | | | | | |? ? ? Q]; subst; [|discriminate Q]. destruct (call_elem eq_refl M) as [-> ->]. exact (elem_not_empty E1).
Qed.
Lemma list_first rs q : first_in srcs rs list_body q -> q = (elem_rules, elem_body).
Proof.
  intros F. inversion F as [| | |t0 u q1 _ _ I0 F1]; subst. destruct I0 as [<-|[]]. clear F. rename F1 into F. apply seq_first in F; [|apply call_not_empty]. inversion F as [p rs' e M| | |t0 u q0 N1 N2 I0]; subst; [|destruct I0]. destruct (call_elem eq_refl M) as [-> ->]. reflexivity.
Qed.
Lemma two_end : modules_end srcs.
Proof.
  split.
  - intros path rs void n e I0 I1 C.
    assert (STEP : forall a b, clos_trans _ (fun a b => first_in srcs (fst a) (snd a) b) a b -> snd a <> elem_body /\ (snd a = list_body -> snd b = elem_body)).
    { intros a b C0. apply clos_trans_t1n in C0. induction C0 as [a b F|a b c F _ IH].
      - split; [intros Q; rewrite Q in F; exact (elem_first F)|]. intros Q. rewrite Q in F. rewrite (list_first F). reflexivity.
      - split; [intros Q; rewrite Q in F; exact (elem_first F)|]. intros Q. rewrite Q in F. rewrite (list_first F) in IH. destruct (proj1 IH eq_refl). }
    destruct (STEP _ _ C) as [N1 N2]. cbn [snd] in *. destruct (two_rules I0 I1) as [[_ ->]|[_ ->]]; [destruct (N1 eq_refl)|]. specialize (N2 eq_refl). discriminate N2.
  - intros path rs void t I0 P. enough (K : t = XSeq [XStr [44%N]; XCall ["a"; "elem"]]) by (subst t; apply seq_empty, no_str).
    destruct P as [(n & e & I1 & W)|(n & e & I1 & W)]; destruct (two_rules I0 I1) as [[_ ->]|[_ ->]]; unfold elem_body, list_body in W; split_within W; try discriminate W. injection W as <-. reflexivity.
Qed.
Lemma two_resolve : links_resolve srcs.
Proof.
  intros path rs void p rs' void' n I0 (n0 & e & I1 & W) R M.
  destruct (two_rules I0 I1) as [[_ ->]|[_ ->]]; unfold elem_body, list_body in W; split_within W; try discriminate W; injection W as <-; destruct (two_members M) as [[Q ->]|[Q ->]]; try discriminate Q; injection Q as <-; left; reflexivity.
Qed.
End Example.
(** All hypotheses of both theorems hold of these modules; [list] on ["(1,2),3"]. *)
Definition elem_module := match oak toy_type toy_item toy_return toy_generics 100 (print_grammar toy_toks elem_source) with WOk (Some m) => m | _ => [] end.
Definition list_module := match oak toy_type toy_item toy_return toy_generics 100 (print_grammar toy_toks list_source) with WOk (Some m) => m | _ => [] end.
Definition two_mods := two elem_module list_module.
Lemma from_source src m : Forall (canon_block toy_type toy_item toy_toks) src -> toks_strs scalars (print_grammar toy_toks src) ->
  oak toy_type toy_item toy_return toy_generics 100 (print_grammar toy_toks src) = WOk (Some m) -> module_from toy_type toy_item toy_return toy_generics m (blocks_of src).
Proof. intros C L H. exists 100, (print_grammar toy_toks src), (flat_map fst src). split; [exact H|]. split; [exact L|]. apply C38_canonical_read; [reflexivity|exact C]. Qed.
Lemma plain_fit m bs : source_check (block_rules bs) (returned toy_return (functions (block_items bs))) [] [] tupleb 20 = true -> parsers_fit toy_return m bs.
Proof.
  intros H. destruct (source_check_plain (S0 := []) (A := []) (fun id (Q : memb id [] = true) => match Bool.diff_false_true Q with end) (fun id (Q : memb id [] = true) => match Bool.diff_false_true Q with end) H) as (A & B & C).
  split; [exact A|]. split; [exact B|]. right. exact C.
Qed.
Example C51_mutual_case : let mods := two_mods in
  NoDup (map fst mods) /\ Forall (fun x => module_from toy_type toy_item toy_return toy_generics (fst (snd x)) (snd (snd x))) mods /\
  Forall (fun x => parsers_fit toy_return (fst (snd x)) (snd (snd x))) mods /\ modules_end (sources toy_return mods) /\ links_resolve (sources toy_return mods).
Proof.
  split; [repeat constructor; cbn; intuition discriminate|]. split.
  - constructor; [|constructor; [|constructor]].
    + refine (from_source (proj1 two_canon) _ _); [repeat constructor|vm_compute; reflexivity].
    + refine (from_source (proj2 two_canon) _ _); [repeat constructor|vm_compute; reflexivity].
  - split; [constructor; [|constructor; [|constructor]]; apply plain_fit; vm_compute; reflexivity|]. split; [apply two_end|apply two_resolve].
Qed.
Example C51_mutual_run : let v := VAct (ActPath ["number"]) [VChar 49%N; VVec [VChar 50%N]] in
  match run_fn (prog_of list_module) (world (programs two_mods) fails 40) 40 Par "list" (Running.start [40%N; 49%N; 44%N; 50%N; 41%N; 44%N; 51%N]) with
  | Done (st, log) => is_successful st = true /\ bytes_offset (current st) = 7 /\
      log = [(ActPath ["number"], [VChar 49%N; VVec [VChar 50%N]]); (ActPath ["number"], [v; VVec [VChar 51%N]])] /\ data st = Some (VAct (ActPath ["number"]) [v; VVec [VChar 51%N]])
  | _ => False
  end.
Proof. vm_compute. repeat split. Qed.

(** The condition [modules_end] is needed: the macro accepts each of [elem = b::list -> (^)] (in [a]) and [list = a::elem -> (^)]
    (in [b]), whose functions call each other for ever. *)
Definition loop_source (n : string) (p : list string) := [ (@nil (list string), SRule n None (XAsc (XCall p) IInvisible)) ].
Definition loop_a := match oak toy_type toy_item toy_return toy_generics 100 (print_grammar toy_toks (loop_source "elem" ["b"; "list"])) with WOk (Some m) => m | _ => [] end.
Definition loop_b := match oak toy_type toy_item toy_return toy_generics 100 (print_grammar toy_toks (loop_source "list" ["a"; "elem"])) with WOk (Some m) => m | _ => [] end.
Definition loop_mods : modules := [(["a"], (loop_a, blocks_of (loop_source "elem" ["b"; "list"]))); (["b"], (loop_b, blocks_of (loop_source "list" ["a"; "elem"])))].
Theorem C51_mutual_loop : Forall (fun x => module_from toy_type toy_item toy_return toy_generics (fst (snd x)) (snd (snd x))) loop_mods /\
  links_resolve (sources toy_return loop_mods) /\
  forall xf0 k t, run_fn (prog_of loop_a) (world (programs loop_mods) xf0 k) k Rec "elem" (Running.start t) = Timeout.
Proof.
  assert (CA : forall n p, p <> [] -> canon_block toy_type toy_item toy_toks ([], SRule n None (XAsc (XCall p) IInvisible))).
  { intros n p NE. split; [constructor|]. cbn. repeat split; try discriminate; try lia; try exact NE. all: repeat (constructor; try discriminate). }
  split; [constructor; [|constructor; [|constructor]]|split].
  - refine (from_source _ _ _); [constructor; [apply CA; discriminate|constructor]|repeat constructor|vm_compute; reflexivity].
  - refine (from_source _ _ _); [constructor; [apply CA; discriminate|constructor]|repeat constructor|vm_compute; reflexivity].
  - intros path rs void p rs' void' n [Q|[Q|[]]] (n0 & e & I1 & W) R (path' & [Q'|[Q'|[]]] & ->); injection Q as <- <- <-; injection Q' as <- <- <-;
      destruct I1 as [I1|[]]; injection I1 as <- <-; split_within W; try discriminate W; try (injection W as <-; left; reflexivity).
  - intros xf0.
    assert (W : forall k st, world (programs loop_mods) xf0 k Rec ["a"; "elem"] st = Timeout /\ world (programs loop_mods) xf0 k Rec ["b"; "list"] st = Timeout).
    { assert (PA : prog_of loop_a Rec "elem" = Some (mkFunc [] (CCallRec (Foreign ["b"; "list"]) (CSuccess []) CFailure))) by (vm_compute; reflexivity).
      assert (PB : prog_of loop_b Rec "list" = Some (mkFunc [] (CCallRec (Foreign ["a"; "elem"]) (CSuccess []) CFailure))) by (vm_compute; reflexivity).
      assert (MA : module_of (programs loop_mods) ["a"; "elem"] = Some (prog_of loop_a, "elem")) by reflexivity.
      assert (MB : module_of (programs loop_mods) ["b"; "list"] = Some (prog_of loop_b, "list")) by reflexivity.
      induction k as [|k IH]; intros st; cbn [world]; rewrite MA, MB; [auto|]. unfold run_fn. rewrite PA, PB. cbn [of_opt obind fclosures fbody].
      destruct k as [|k]; [auto|]. cbn [eval]. rewrite (proj1 (IH st)), (proj2 (IH st)). auto. }
    intros k t. unfold run_fn. assert (PA : prog_of loop_a Rec "elem" = Some (mkFunc [] (CCallRec (Foreign ["b"; "list"]) (CSuccess []) CFailure))) by (vm_compute; reflexivity).
    rewrite PA. cbn [of_opt obind fclosures fbody]. destruct k as [|k]; [reflexivity|]. cbn [eval]. rewrite (proj2 (W (S k) _)). reflexivity.
Qed.

Print Assumptions C51_mutual_recognizers.
Print Assumptions C51_mutual_parsers_partial.
Print Assumptions C51_mutual_case.
Print Assumptions C51_mutual_run.
Print Assumptions C51_mutual_loop.
