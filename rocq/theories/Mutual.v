(** Modules that call the functions of each other. *)
From Verif Require Import Base Utf8 Stream ParseState RuntimeFacts Grammar CharClass PegSpec Target Compile TargetFacts ScopeFacts
  CompileShape EvalRules CompileCorrect ScopeGen GenTotal PegFacts Running PropertiesGen FrontSpec TreeSpec TreeValues Blind Linking.
Set Implicit Arguments. Unset Strict Implicit.
Open Scope string_scope. Open Scope nat_scope. Open Scope list_scope.

(** ---------------- specification ---------------- *)
(** [path::n] names [n] in the module of path [path]. *)
Definition member (A : Type) (l : list (list string * A)) (p : list string) (a : A) (n : string) : Prop := exists path, In (path, a) l /\ p = path ++ [n].
(** A module, seen from its source: its rules, and which expressions have no value. *)
Definition source := (list (string * tree) * (tree -> Prop))%type.

Section Across.
Variable srcs : list (list string * source).
(** The functions outside of all modules. *)
Variable X0 : extern.
Variable off : text -> nat.
(** The semantics of a path: the rule that it names in another module, whose paths have the same semantics; a parser returns
    one value, the tuple of the values of its rule. *)
Inductive across : extern :=
| ac_in m p s r evs rs void n e : member srcs p (rs, void) n -> In (n, e) rs -> tep rs across off void m (TE e) s r evs -> across m p s (one_value m r) evs
| ac_out m p s r evs : (forall a n, ~ member srcs p a n) -> X0 m p s r evs -> across m p s r evs.
End Across.

(** The functions outside of a module, in a program made of the modules [ms] and of [xf0]; calls from module to module are
    nested at most [k] times, and each takes at most [k] steps. *)
Definition module_of (A : Type) (l : list (list string * A)) (p : list string) : option (A * string) :=
  match rev p with
  | [] => None
  | n :: q => option_map (fun x => (snd x, n)) (find (fun x => if list_eq_dec string_dec (rev q) (fst x) then true else false) l)
  end.
Fixpoint world (ms : list (list string * (mode -> string -> option func))) xf0 (k : nat) (m : mode) (p : list string) (st : pst) : outcome (pst * alog) :=
  match module_of ms p with
  | Some (prog, n) => match k with 0 => Timeout | S k' => run_fn prog (world ms xf0 k') k' m n st end
  | None => xf0 m p st
  end.

(** ---------------- members ---------------- *)
Lemma module_of_some (A : Type) (l : list (list string * A)) p a n : module_of l p = Some (a, n) -> member l p a n.
Proof.
  unfold module_of. destruct (rev p) as [|n0 q] eqn:R; [discriminate|]. destruct (find _ l) as [[path b]|] eqn:F; [|discriminate]. cbn. intros Q. injection Q as <- <-.
  destruct (find_some _ _ F) as [I0 E]. cbn in E. destruct (list_eq_dec string_dec (rev q) path) as [<-|]; [|discriminate]. exists (rev q). split; [exact I0|].
  rewrite <- (rev_involutive p), R. reflexivity.
Qed.
Lemma module_of_none (A : Type) (l : list (list string * A)) p : module_of l p = None -> forall a n, ~ member l p a n.
Proof.
  unfold module_of. intros H a n (path & I0 & ->). rewrite rev_app_distr in H. cbn [rev app] in H. destruct (find _ l) as [x|] eqn:F; [discriminate|].
  pose proof (find_none _ _ F _ I0) as K. cbn in K. rewrite rev_involutive in K. destruct (list_eq_dec string_dec path path); [discriminate|contradiction].
Qed.
Lemma member_only (A : Type) (l : list (list string * A)) p a n a' n' : NoDup (map fst l) -> member l p a n -> member l p a' n' -> a = a' /\ n = n'.
Proof.
  intros ND (path & I0 & ->) (path' & I1 & Q). apply app_inj_tail in Q. destruct Q as [<- <-]. split; [|reflexivity].
  clear - ND I0 I1. induction l as [|x l IH]; [destruct I0|]. cbn [map] in ND. inversion ND as [|? ? NI ND']; subst.
  destruct I0 as [->|I0], I1 as [I1|I1]; [congruence| | |exact (IH ND' I0 I1)]; exfalso; apply NI; [exact (in_map fst _ _ I1)|]. subst x. exact (in_map fst _ _ I0).
Qed.

(** ---------------- the least relation ---------------- *)
Section Least.
Variables (srcs : list (list string * source)) (X0 : extern) (off : text -> nat).
Lemma tep_mono rs (X Y : extern) void : (forall m p s r evs, X m p s r evs -> Y m p s r evs) -> forall m it s r evs, tep rs X off void m it s r evs -> tep rs Y off void m it s r evs.
Proof.
  intros H. fix F 6. intros m it s r evs T. destruct T.
  1: { apply te_void; [assumption|apply F; assumption]. }
  all: try (constructor; assumption).
  all: try (econstructor; try eassumption; first [apply H; assumption|apply F; assumption|eapply F; eassumption]).
Defined.
Variable R : extern.
Hypothesis H1 : forall m p s r evs rs void n e, member srcs p (rs, void) n -> In (n, e) rs -> tep rs R off void m (TE e) s r evs -> R m p s (one_value m r) evs.
Hypothesis H2 : forall m p s r evs, (forall a n, ~ member srcs p a n) -> X0 m p s r evs -> R m p s r evs.
Lemma across_least : forall m p s r evs, across srcs X0 off m p s r evs -> R m p s r evs.
Proof.
  fix F 6. intros m p s r evs A. destruct A as [m p s r evs rs void n e M I0 T|m p s r evs N X].
  - exact (H1 M I0 (tep_mono F T)).
  - exact (H2 N X).
Qed.
End Least.

(** ---------------- more fuel, more answers ---------------- *)
Section More.
Variable prog : mode -> string -> option func.
Variables xf xf' : mode -> list string -> pst -> outcome (pst * alog).
Hypothesis LX : forall m p st, le_out (xf m p st) (xf' m p st).
Lemma eval_more n : forall cl c st e, le_out (eval prog xf n cl c st e) (eval prog xf' n cl c st e).
Proof.
  induction n as [|n IH]; intros cl c st e; [left; reflexivity|].
  assert (CALL : forall m p st, le_out
     (match p with Local id => f <~ of_opt (prog m id) ;; '(st', _, l) <~ eval prog xf n (fclosures f) (fbody f) st [] ;; Done (st', l) | Foreign p => xf m p st end)
     (match p with Local id => f <~ of_opt (prog m id) ;; '(st', _, l) <~ eval prog xf' n (fclosures f) (fbody f) st [] ;; Done (st', l) | Foreign p => xf' m p st end)).
  { intros m [id|p] st0; [|apply LX]. apply le_obind; [apply le_out_refl|]. intros f. apply le_obind; [apply IH|]. intros [[? ?] ?]. apply le_out_refl. }
  cbn [eval].
  destruct c;
    repeat (first
      [ apply le_out_refl
      | apply IH
      | apply CALL
      | apply le_popped
      | apply le_popped_n
      | apply le_after; [|intros ? ?]
      | apply le_obind; [|intros ?]
      | match goal with
        | |- le_out (match ?t with _ => _ end) (match ?t with _ => _ end) => destruct t
        | |- le_out (if ?t then _ else _) (if ?t then _ else _) => destruct t
        end ]).
Qed.
Lemma run_fn_more k k' m n st : k <= k' -> le_out (run_fn prog xf k m n st) (run_fn prog xf' k' m n st).
Proof.
  intros L. unfold run_fn. destruct (prog m n) as [f|]; [|apply le_out_refl].
  destruct (@eval_mono prog xf k k' (fclosures f) (fbody f) st [] L) as [K|K]; rewrite K; [left; reflexivity|].
  apply le_obind; [apply eval_more|]. intros [[? ?] ?]. apply le_out_refl.
Qed.
End More.
Lemma world_more ms xf0 k : forall k', k <= k' -> forall m p st, le_out (world ms xf0 k m p st) (world ms xf0 k' m p st).
Proof.
  induction k as [|k IH]; intros k' L m p st.
  - destruct k'; cbn [world]; destruct (module_of ms p) as [[prog n]|]; try apply le_out_refl. left. reflexivity.
  - destruct k' as [|k']; [lia|]. cbn [world]. destruct (module_of ms p) as [[prog n]|]; [|apply le_out_refl]. apply run_fn_more; [|lia]. apply IH. lia.
Qed.
Lemma world_blind ms xf0 k : blind xf0 -> blind (world ms xf0 k).
Proof.
  intros B. induction k as [|k IH]; intros m p a b S0; cbn [world]; destruct (module_of ms p) as [[prog n]|]; try exact (B m p a b S0); [exact I|]. exact (@run_fn_blind prog _ IH k m n a b S0).
Qed.

(** ---------------- a module and its source ---------------- *)
(** The functions of [prog] do what the rules say, whatever the functions outside. *)
Definition faithful (md : mode -> Prop) (prog : mode -> string -> option func) (q : source) : Prop :=
  forall X xf t, scalars t -> ext_ok X xf t -> forall m n e, md m -> In (n, e) (fst q) -> forall s r evs, suffix t s -> tep (fst q) X (off t) (snd q) m (TE e) s r evs ->
  forall ei, exists st, (exists k, run_fn prog xf k m n (run_at t s ei) = Done (st, acts evs)) /\ result_at t ei r evs st.

Lemma one_fuel prog xf t m n s evs r : blind xf -> (forall ei, exists st, (exists k, run_fn prog xf k m n (run_at t s ei) = Done (st, acts evs)) /\ result_at t ei r evs st) ->
  exists k, forall ei, exists st, run_fn prog xf k m n (run_at t s ei) = Done (st, acts evs) /\ result_at t ei r evs st.
Proof.
  intros BX H. destruct (H (str_stream t, [])) as (st0 & (k & R0) & _). exists k. intros ei. destruct (H ei) as (st & (k1 & R1) & RA). exists st. split; [|exact RA].
  pose proof (@run_fn_blind prog xf BX k m n (run_at t s (str_stream t, [])) (run_at t s ei) ltac:(repeat split)) as B. rewrite R0 in B.
  destruct (run_fn prog xf k m n (run_at t s ei)) as [q| | |] eqn:R; cbn [orel] in B; try contradiction.
  assert (L1 : k <= k + k1) by lia. assert (L2 : k1 <= k + k1) by lia. pose proof (run_fn_mono L1 R) as Q1. pose proof (run_fn_mono L2 R1) as Q2. congruence.
Qed.

(** ---------------- recognition has no values and calls no action ---------------- *)
Definition silent (X : extern) : Prop := forall p s r evs, X Rec p s r evs -> only_errs evs = evs /\ forall q, r = Some q -> snd q = [].
Lemma tep_silent rs X off void m it s r evs : silent X -> tep rs X off void m it s r evs -> m = Rec ->
  only_errs evs = evs /\ ((forall t, it <> TStar t) -> forall q, r = Some q -> snd q = []).
Proof.
  intros SX. induction 1; intros MR; subst; try discriminate MR; try (split; [reflexivity|]; intros _ q Q; first [discriminate Q|injection Q as <-; reflexivity]).
  all: repeat match goal with IH : Rec = Rec -> _ |- _ => specialize (IH eq_refl); let A := fresh "A" in let B := fresh "B" in destruct IH as [A B] end.
  all: try (split; [|intros _ q Q; first [discriminate Q|injection Q as <-; reflexivity]]; rewrite ?only_errs_app; congruence).
  all: try (split; [assumption|]; intros _; match goal with B : (forall t, TE _ <> TStar t) -> _ |- _ => apply B; discriminate | B : (forall t, TSeq _ <> TStar t) -> _ |- _ => apply B; discriminate | B : (forall t, TAlt _ <> TStar t) -> _ |- _ => apply B; discriminate end).
  - destruct (SX _ _ _ _ H1) as [A B]. split; [exact A|]. intros _. exact B.
  - split; [rewrite only_errs_app; congruence|]. intros _ q Q. injection Q as <-. cbn [snd]. rewrite (B ltac:(discriminate) _ eq_refl : vs1 = []), (B0 ltac:(discriminate) _ eq_refl : vs2 = []). reflexivity.
  - split; [rewrite only_errs_app; congruence|]. intros _. apply B0. discriminate.
  - split; [rewrite only_errs_app; congruence|]. intros N. destruct (N t eq_refl).
Qed.

(** What is left is the end of what was read. *)
Lemma tep_suffix rs (X : extern) off void m it s r evs : (forall m p s s1 vs evs, X m p s (Some (s1, vs)) evs -> exists pre, s = pre ++ s1) -> tep rs X off void m it s r evs ->
  forall s1 vs, r = Some (s1, vs) -> exists pre, s = pre ++ s1.
Proof.
  intros SX. induction 1; intros q ws Q; try discriminate Q; try (injection Q as <- <-); try (exists []; reflexivity); try (eexists; reflexivity); eauto 3.
  all: try (exists [c]; reflexivity).
  all: try (destruct (IHtep _ _ eq_refl) as (pre & ->); exists pre; reflexivity).
  all: try (destruct (IHtep1 _ _ eq_refl) as (pre & ->); destruct (IHtep2 _ _ eq_refl) as (pre' & ->); exists (pre ++ pre'); rewrite app_assoc; reflexivity).
  all: try (subst r; exact (SX _ _ _ _ _ _ H1)).
Qed.

(** ---------------- a derivation uses finitely many calls ---------------- *)
Section Up.
Variables (t : text) (md : mode -> Prop) (Y : nat -> extern).
Hypothesis MD : md Rec.
Hypothesis YM : forall K K' m p s r evs, K <= K' -> Y K m p s r evs -> Y K' m p s r evs.
Hypothesis YS : forall K m p s s1 vs evs, Y K m p s (Some (s1, vs)) evs -> exists pre, s = pre ++ s1.
Definition eventually : extern := fun m p s r evs => md m -> suffix t s -> exists K, Y K m p s r evs.
Lemma tep_up rs off void m it s r evs : tep rs eventually off void m it s r evs -> md m -> suffix t s ->
  (exists K, tep rs (Y K) off void m it s r evs) /\ forall s1 vs, r = Some (s1, vs) -> suffix t s1.
Proof.
  assert (UP : forall K K' m it s r evs, K <= K' -> tep rs (Y K) off void m it s r evs -> tep rs (Y K') off void m it s r evs).
  { intros K K' m0 it0 s0 r0 evs0 L. apply tep_mono. intros. eapply YM; eassumption. }
  assert (SA : forall p s, suffix t (p ++ s) -> suffix t s) by (intros p s0 [q H]; exists (q ++ p); rewrite <- app_assoc; exact H).
  induction 1; intros Mm Hs.
  all: repeat match goal with IH : md ?m -> suffix t ?s -> _, Hs : suffix t ?s |- _ =>
      let A := fresh "A" in let B := fresh "B" in destruct (IH ltac:(first [exact Mm|exact MD]) Hs) as [A B]; clear IH; 
      try (match type of B with forall s1 vs, Some (?x, _) = _ -> _ => pose proof (B _ _ eq_refl) end) end.
  all: repeat match goal with A : exists K, _ |- _ => destruct A as [? A] end.
  all: split; [|intros ? ? Q; first [discriminate Q|injection Q as <- <-; first [assumption|exact (SA [_] _ Hs)|exact (SA _ _ Hs)]|eauto 3]].
  all: try (exists 0; constructor; assumption).
  all: try (match goal with T : tep _ (Y ?K) _ _ _ _ _ _ _ |- _ => exists K; econstructor; eassumption end).
  all: try (match goal with T : tep _ (Y ?K) _ _ _ _ _ _ _, T' : tep _ (Y ?K') _ _ _ _ _ _ _ |- _ => exists (K + K'); econstructor; eauto; [refine (UP K _ _ _ _ _ _ _ T); lia|refine (UP K' _ _ _ _ _ _ _ T'); lia] end).
  - destruct (H1 Mm Hs) as (K & HY). exists K. econstructor; eassumption.
  - destruct (H1 Mm Hs) as (K & HY). subst. destruct (YS HY) as (pre & ->). exact (SA _ _ Hs).
Qed.
End Up.

(** ---------------- the modules answer as their sources say ---------------- *)
Lemma module_of_same (A B : Type) (l : list (list string * A)) (l' : list (list string * B)) (P : A -> B -> Prop) : Forall2 (fun a b => fst a = fst b /\ P (snd a) (snd b)) l l' -> NoDup (map fst l) ->
  forall p, (forall a n, member l p a n -> exists b, module_of l' p = Some (b, n) /\ P a b) /\ ((forall a n, ~ member l p a n) -> module_of l' p = None).
Proof.
  intros F ND p. split.
  - intros a n (path & I0 & ->). unfold module_of. rewrite rev_app_distr. cbn [rev app]. rewrite rev_involutive. induction F as [|x y l l' [E Q] F IH]; [destruct I0|].
    cbn [map] in ND. inversion ND as [|? ? NI ND']; subst. cbn [find]. destruct (list_eq_dec string_dec path (fst y)) as [->|NE].
    + exists (snd y). split; [reflexivity|]. destruct I0 as [->|I0]; [exact Q|]. exfalso. apply NI. rewrite E. exact (in_map fst _ _ I0).
    + destruct I0 as [->|I0]; [cbn in E; congruence|]. exact (IH ND' I0).
  - intros N. destruct (module_of l' p) as [[b n]|] eqn:M; [|reflexivity]. exfalso. destruct (module_of_some M) as (path & I0 & ->).
    clear M ND. assert (K : exists a, In (path, a) l).
    { induction F as [|x y l l' [E Q] F IH]; [destruct I0|]. destruct I0 as [->|I0]; [exists (snd x); left; destruct x; cbn in *; congruence|].
      destruct IH as (a & Ia); [|exact I0|exists a; right; exact Ia]. intros a n' (path' & I1 & Q'). apply (N a n'). exists path'. split; [right; exact I1|exact Q']. }
    destruct K as (a & Ia). apply (N a n). exists path. auto.
Qed.

Section Sure.
Variables (t : text) (md : mode -> Prop) (srcs : list (list string * source)) (ms : list (list string * (mode -> string -> option func))).
Variables (X0 : extern) (xf0 : mode -> list string -> pst -> outcome (pst * alog)).
Hypothesis TX : scalars t.
Hypothesis MD : md Rec.
Hypothesis FM : Forall2 (fun a b => fst a = fst b /\ faithful md (snd b) (snd a)) srcs ms.
Hypothesis ND : NoDup (map fst srcs).
Hypothesis XO : ext_ok X0 xf0 t.
Hypothesis XS : silent X0.
Hypothesis BX : blind xf0.
Local Notation world := (world ms xf0).
Local Notation across := (across srcs X0 (off t)).

Definition answers_as (xf : mode -> list string -> pst -> outcome (pst * alog)) : extern := fun m p s r evs =>
  match r with
  | Some (s1, vs) => (exists pre, s = pre ++ s1) /\ length vs = match m with Rec => 0 | Par => 1 end
      /\ forall ei, exists d, xf m p (run_at t s ei) = Done (mkPS (fst (recd t ei evs)) (snd (recd t ei evs)) false (strm t s1) d, acts evs) /\ (m = Par -> d = Some (tup vs))
  | None => forall ei, exists cur d, xf m p (run_at t s ei) = Done (mkPS (fst (recd t ei evs)) (snd (recd t ei evs)) true cur d, acts evs)
  end.
Definition sure (K : nat) : extern := fun m p s r evs => forall k, K <= k -> answers_as (world k) m p s r evs.
Lemma sure_ok K k : K <= k -> ext_ok (sure K) (world k) t.
Proof. intros L m p s r evs Hs H. exact (H k L). Qed.
Lemma sure_suffix K m p s s1 vs evs : sure K m p s (Some (s1, vs)) evs -> exists pre, s = pre ++ s1.
Proof. intros H. exact (proj1 (H K (le_n K))). Qed.

(** A function of a module answers, with one fuel. *)
Lemma body_runs K prog rs void m n e s r evs : faithful md prog (rs, void) -> In (n, e) rs -> md m -> suffix t s -> tep rs (sure K) (off t) void m (TE e) s r evs ->
  exists K', forall k, K' <= k -> forall ei, exists st, run_fn prog (world k) k m n (run_at t s ei) = Done (st, acts evs) /\ result_at t ei r evs st.
Proof.
  intros FA I0 Mm Hs T. destruct (@one_fuel prog (world K) t m n s evs r (world_blind ms K BX) (FA _ _ _ TX (sure_ok (le_n K)) m n e Mm I0 s r evs Hs T)) as (k0 & H).
  exists (K + k0). intros k L ei. destruct (H ei) as (st & R & RA). exists st. split; [|exact RA].
  assert (L1 : K <= k) by lia. assert (L2 : k0 <= k) by lia. destruct (@run_fn_more prog (world K) (world k) (world_more ms xf0 L1) k0 k m n (run_at t s ei) L2) as [Q|Q]; congruence.
Qed.
Lemma across_silent : silent across.
Proof.
  set (RR := (fun m (p : list string) (s : text) r evs => m = Rec -> only_errs evs = evs /\ forall q, r = Some q -> snd q = []) : extern).
  enough (H : forall m p s r evs, across m p s r evs -> RR m p s r evs) by (intros p s r evs A; exact (H _ _ _ _ _ A eq_refl)). apply across_least.
  - intros m p0 s0 r0 evs0 rs void n e M I0 T ->. cbn [one_value]. assert (SR : silent RR) by (intros ? ? ? ? K; exact (K eq_refl)).
    destruct (tep_silent SR T eq_refl) as [A B]. split; [exact A|]. apply B. discriminate.
  - intros m p0 s0 r0 evs0 N X ->. exact (XS X).
Qed.
Lemma across_sure m p s r evs : across m p s r evs -> eventually t md sure m p s r evs.
Proof.
  set (RR := (fun m p s r evs => eventually t md sure m p s r evs /\ across m p s r evs) : extern).
  enough (H : forall m p s r evs, across m p s r evs -> RR m p s r evs) by (intros A; exact (proj1 (H _ _ _ _ _ A))). clear m p s r evs. apply across_least.
  - intros m p s r evs rs void n e M I0 T. split.
    + intros Mm Hs. assert (UM : forall K K' m p s r evs, K <= K' -> sure K m p s r evs -> sure K' m p s r evs) by (intros K K' ? ? ? ? ? L H k L'; apply H; lia).
      destruct (tep_up MD UM sure_suffix (tep_mono (fun m p s r evs H => proj1 H) T) Mm Hs) as ((K & TK) & SU).
      destruct (proj1 (module_of_same (P := fun a b => faithful md b a) FM ND p) _ _ M) as (prog & MO & FA). destruct (body_runs FA I0 Mm Hs TK) as (K' & RU).
      exists (S K'). intros k L. destruct k as [|k]; [lia|].
      assert (RW : forall ei, exists st, world (S k) m p (run_at t s ei) = Done (st, acts evs) /\ result_at t ei r evs st) by (intros ei; cbn [Mutual.world]; rewrite MO; apply RU; lia).
      unfold answers_as. destruct r as [[s1 vs]|].
      * assert (PRE : exists pre, s = pre ++ s1).
        { exact (tep_suffix (fun m p s s1 vs evs H => sure_suffix H) TK eq_refl). }
        destruct m; cbn [one_value option_map fst snd].
        -- split; [exact PRE|]. assert (vs = []) as ->. { assert (SR : silent RR) by (intros ? ? ? ? [_ H]; exact (across_silent H)). exact (proj2 (tep_silent SR T eq_refl) ltac:(discriminate) _ eq_refl). }
           split; [reflexivity|]. intros ei. destruct (RW ei) as (st & RN & ->). eexists. split; [exact RN|discriminate].
        -- split; [exact PRE|]. split; [reflexivity|]. intros ei. destruct (RW ei) as (st & RN & ->). eexists. split; [exact RN|reflexivity].
      * destruct m; intros ei; destruct (RW ei) as (st & RN & (cur & ->)); exists cur, None; exact RN.
    + apply ac_in with (rs := rs) (void := void) (n := n) (e := e); [exact M|exact I0|]. exact (tep_mono (fun m p s r evs H => proj2 H) T).
  - intros m p s r evs N X. split; [|apply ac_out; assumption]. intros Mm Hs. exists 0. intros k _.
    pose proof (XO Hs X) as K. assert (W : forall st, world k m p st = xf0 m p st) by (intros st; destruct k; cbn [Mutual.world]; rewrite (proj2 (module_of_same (P := fun a b => faithful md b a) FM ND p) N); reflexivity).
    unfold answers_as. destruct r as [[s1 vs]|].
    + destruct K as (K1 & K2 & K3). split; [exact K1|]. split; [exact K2|]. intros ei. destruct (K3 ei) as (d & Q & D). exists d. rewrite W. auto.
    + intros ei. destruct (K ei) as (cur & d & Q). exists cur, d. rewrite W. exact Q.
Qed.

(** A function called from outside. *)
Theorem module_runs path prog rs void m n e r evs : In (path, (rs, void)) srcs -> In (path, prog) ms -> In (n, e) rs -> md m ->
  tep rs across (off t) void m (TE e) t r evs ->
  exists K st, final t m r evs st /\ (forall s1 vs, r = Some (s1, vs) -> suffix t s1) /\ forall k, K <= k -> run_fn prog (world k) k m n (start t) = Done (st, acts evs).
Proof.
  intros I1 I2 I0 Mm T. assert (UM : forall K K' m p s r evs, K <= K' -> sure K m p s r evs -> sure K' m p s r evs) by (intros K K' ? ? ? ? ? L H k L'; apply H; lia).
  assert (Hs : suffix t t) by (exists []; reflexivity).
  destruct (tep_up MD UM sure_suffix (tep_mono (fun m p s r evs H => across_sure H) T) Mm Hs) as ((K & TK) & SU).
  assert (FA : faithful md prog (rs, void)).
  { clear - I1 I2 FM ND. induction FM as [|x y l l' [E Q] F IH]; [destruct I1|]. cbn [map] in ND. inversion ND as [|? ? NI ND']; subst.
    assert (SAME : forall q, In q l' -> exists q', In q' l /\ fst q' = fst q).
    { clear - F. induction F as [|x y l l' [E Q] F IH]; [intros q []|]. intros q [<-|I0]; [exists x; split; [left; reflexivity|exact E]|]. destruct (IH q I0) as (q' & I' & E'). exists q'. split; [right; exact I'|exact E']. }
    destruct I1 as [->|I1], I2 as [->|I2].
    - exact Q.
    - exfalso. destruct (SAME _ I2) as (q' & I' & E'). apply NI. cbn in *. rewrite <- E'. exact (in_map fst _ _ I').
    - exfalso. apply NI. rewrite E. exact (in_map fst _ _ I1).
    - exact (IH F ND' I1 I2). }
  destruct (body_runs FA I0 Mm Hs TK) as (K' & RU). exists K'.
  destruct (RU K' (le_n K') (str_stream t, [])) as (st & R & RA). exists st. split.
  - unfold final, errors_of. unfold result_at in RA. exact RA.
  - split; [exact SU|]. intros k L. rewrite start_run. destruct (RU k L (str_stream t, [])) as (st' & R' & RA').
    rewrite R'. assert (L1 : K' <= k) by exact L. destruct (@run_fn_more prog (world K') (world k) (world_more ms xf0 L1) K' k m n (run_at t t (str_stream t, [])) L1) as [Q|Q]; congruence.
Qed.
End Sure.

(** ---------------- one answer ---------------- *)
Section Det.
Variables (rs : list (string * tree)) (X Y : extern) (off : text -> nat) (void : tree -> Prop).
Hypothesis XY : forall m p s r1 e1 r2 e2, X m p s r1 e1 -> Y m p s r2 e2 -> r1 = r2 /\ e1 = e2.
Lemma tep_det m it s r1 e1 : tep rs X off void m it s r1 e1 -> forall r2 e2, tep rs Y off void m it s r2 e2 -> r1 = r2 /\ e1 = e2.
Proof.
  induction 1; intros r2 e2 T2; inversion T2; subst; cbn [valued] in *; try contradiction; try congruence;
    repeat match goal with
    | IH : forall r e, tep rs Y off void ?m ?it ?s r e -> _ = r /\ _ = e, H : tep rs Y off void ?m ?it ?s _ _ |- _ =>
      let A := fresh in let B := fresh in destruct (IH _ _ H) as [A B]; clear H; try discriminate A;
      try (injection A; clear A; intros); subst
    end; auto; try (split; congruence).
  all: try (match goal with H1 : X _ _ _ _ _, H2 : Y _ _ _ _ _ |- _ => exact (XY H1 H2) end).
  all: try (exfalso; match goal with H : forall rest, ?s <> _ ++ rest |- _ => eapply H; reflexivity end).
  - match goal with H : ?l ++ _ = ?l ++ _ |- _ => apply app_inv_head in H; subst; auto end.
  - match goal with Q : rule_called rs ?p = Some ?t, Q' : rule_called rs ?p = Some ?t' |- _ => assert (t' = t) as -> by congruence end. auto.
  - match goal with U : ?u = true <-> _, U' : ?u' = true <-> _ |- _ => assert (u = u') as -> by (destruct u, u'; try reflexivity; exfalso; intuition congruence); auto end.
Qed.
End Det.

Lemma across_det srcs (X0 : extern) off : NoDup (map fst srcs) -> Forall (fun x => NoDup (map fst (fst (snd x)))) srcs -> (forall m p s r1 e1 r2 e2, X0 m p s r1 e1 -> X0 m p s r2 e2 -> r1 = r2 /\ e1 = e2) ->
  forall m p s r1 e1 r2 e2, across srcs X0 off m p s r1 e1 -> across srcs X0 off m p s r2 e2 -> r1 = r2 /\ e1 = e2.
Proof.
  intros ND NR XD. set (RR := (fun m p s r evs => forall r2 e2, across srcs X0 off m p s r2 e2 -> r = r2 /\ evs = e2) : extern).
  enough (H : forall m p s r evs, across srcs X0 off m p s r evs -> RR m p s r evs) by (intros m p s r1 e1 r2 e2 A B; exact (H _ _ _ _ _ A _ _ B)). apply across_least.
  - intros m p s r evs rs void n e M I0 T r2 e2 A. destruct A as [m p s r' evs' rs' void' n' e' M' I1 T'|m p s r' evs' N X]; [|destruct (N _ _ M)].
    destruct (member_only ND M M') as [Q Qn]. injection Q as <- <-. subst n'.
    assert (e' = e) as ->.
    { destruct M as (path & IM & _). rewrite Forall_forall in NR. specialize (NR _ IM). cbn in NR. clear - NR I0 I1. induction rs as [|q l IH]; [destruct I0|]. cbn [map] in NR. inversion NR as [|? ? NI NR']; subst.
      destruct I0 as [->|I0], I1 as [I1|I1]; [congruence| | |exact (IH NR' I0 I1)]; exfalso; apply NI; [exact (in_map fst _ _ I1)|]. subst q. exact (in_map fst _ _ I0). }
    destruct (tep_det (fun m p s r1 e1 r2 e2 (H : RR m p s r1 e1) H2 => H r2 e2 H2) T T') as [-> ->]. auto.
  - intros m p s r evs N X r2 e2 A. destruct A as [m p s r' evs' rs' void' n' e' M' I1 T'|m p s r' evs' _ X']; [destruct (N _ _ M')|]. exact (XD _ _ _ _ _ _ _ X X').
Qed.
