(** Calling the functions of a generated module from another one. *)
From Coq Require Import FinFun.
From Verif Require Import Base Utf8 Stream ParseState RuntimeFacts Grammar PegSpec Target Compile TargetFacts ScopeFacts
  CompileShape EvalRules CompileCorrect ScopeGen GenTotal PegFacts Running WellFormed WfFacts WfSound WfSyntax PegRun Behave Agree Blind.
Set Implicit Arguments. Unset Strict Implicit.
Open Scope string_scope. Open Scope nat_scope. Open Scope list_scope.

(** The rule [n] of [used] called by the path [path::n]. *)
Definition import (path used : list string) (p : list string) : option string :=
  find (fun n => if list_eq_dec string_dec p (path ++ [n]) then true else false) used.
Lemma import_some path used p n : import path used p = Some n -> p = path ++ [n] /\ In n used.
Proof. intros H. apply find_some in H. destruct H as [I0 H]. destruct (list_eq_dec string_dec p (path ++ [n])); [auto|discriminate]. Qed.
Lemma import_used path used n : In n used -> import path used (path ++ [n]) = Some n.
Proof.
  intros I0. destruct (import path used (path ++ [n])) as [n'|] eqn:E.
  - apply import_some in E. destruct E as [E _]. apply app_inv_head in E. injection E as <-. reflexivity.
  - exfalso. pose proof (find_none _ _ E n I0) as Q. cbn in Q. destruct (list_eq_dec string_dec (path ++ [n]) (path ++ [n])); [discriminate|contradiction].
Qed.
(** Foreign functions of which those named [path::n] are the functions of a module. *)
Definition linked_by (md : mode -> mode) (prog : mode -> string -> option func) xf2 (k : nat) (path used : list string) (xf0 : mode -> list string -> pst -> outcome (pst * alog)) :=
  fun (m : mode) (p : list string) (st : pst) => match import path used p with Some n => run_fn prog xf2 k (md m) n st | None => xf0 m p st end.
Definition linked := linked_by (fun m => m).

(** One fuel for finitely many things. *)
Lemma common_fuel (A : Type) (l : list A) (Q : A -> nat -> Prop) : (forall a k k', k <= k' -> Q a k -> Q a k') -> (forall a, In a l -> exists k, Q a k) -> exists K, forall a, In a l -> Q a K.
Proof.
  intros M. induction l as [|a l IH]; intros H; [exists 0; intros a []|]. destruct (H a (or_introl eq_refl)) as (k & Qa). destruct IH as (K & QL); [intros b Ib; apply H; right; exact Ib|].
  exists (k + K). intros b [<-|Ib]; [apply (M a k); [lia|exact Qa]|apply (M b K); [lia|exact (QL b Ib)]].
Qed.
Fixpoint suffixes (t : text) : list text := t :: match t with [] => [] | _ :: t' => suffixes t' end.
Lemma suffixes_all t s : suffix t s -> In s (suffixes t).
Proof. intros (pre & ->). induction pre as [|c pre IH]; cbn [app]; [destruct s; left; reflexivity|]. right. exact IH. Qed.

Section Link.
Variables (G : grammar) (X : extern) (xf : mode -> list string -> pst -> outcome (pst * alog)) (t : text).
Hypothesis HR : ready G X xf t.
(** The functions used for parsers: the parsers, or the recognizers. *)
Variable md : mode -> mode.
Hypothesis MR : md Rec = Rec.
Hypothesis MO : forall m, mode_ok G (md m).
Hypothesis BX : blind xf.
Notation ep := (ep G X (off t)).

Definition result_at (ei : StrStream * list (list N)) (r : option (text * list value)) (evs : list event) (st : pst) : Prop :=
  match r with
  | Some (s1, vs) => st = success (run_at t s1 (recd t ei evs)) (tup vs)
  | None => exists cur, st = fail_at cur (recd t ei evs)
  end.
Lemma call_at m id rl s r evs : mode_ok G m -> find_rule G id = Some rl -> suffix t s -> ep m (IE (rexpr rl)) s r evs -> forall ei,
  exists st, calls (gen_prog G) xf m (Local id) (run_at t s ei) (st, acts evs) /\ result_at ei r evs st.
Proof.
  intros Mm F Hs H ei. pose proof (rd_setting HR) as HS. pose proof (prog_ok_mode HS Mm) as HP.
  assert (Rc : forall r evs, ep Rec (IE (rexpr rl)) s r evs -> exists st, calls (gen_prog G) xf Rec (Local id) (run_at t s ei) (st, acts evs) /\ result_at ei r evs st).
  { intros r0 evs0 H0. pose proof (correct_code (se_text HS) (se_ext HS) (se_lits HS) H0) as K. pose proof (fun_rec F Hs (funs_rec HS) K ei) as C.
    unfold result_at. destruct r0 as [[rest vs]|]; [destruct C as [-> C]; eexists; split; [exact C|reflexivity]|]. destruct C as [cur C]. eexists. split; [exact C|]. exists cur. reflexivity. }
  destruct m; [exact (Rc _ _ H)|]. destruct (is_unit G (rexpr rl)) eqn:U.
  - destruct (Rc _ _ (ep_unit_inv H U)) as (st & C & Fi). exists st. split; [|exact Fi]. pose proof (find_rule_in F) as [_ N].
    exists (mkFunc [] (CTail (rname rl))), []. split.
    + unfold gen_prog. rewrite F. simpl. unfold gen_parser. unfold is_unit in U. destruct (ty_of G (rexpr rl)) as [ty|]; [|discriminate]. rewrite U. reflexivity.
    + cbn [fclosures fbody fst snd]. apply ev_tail. rewrite N. exact C.
  - pose proof (correct_code (se_text HS) (se_ext HS) (se_lits HS) H) as K. pose proof (fun_par F Hs HP U K ei) as C.
    unfold result_at. destruct r as [[rest vs]|]; [destruct C as [_ C]; eexists; split; [exact C|reflexivity]|]. destruct C as [cur C]. eexists. split; [exact C|]. exists cur. reflexivity.
Qed.
Lemma calls_run m id st r : calls (gen_prog G) xf m (Local id) st r -> exists k, run_fn (gen_prog G) xf k m id st = Done r.
Proof. intros (f & e' & P & n & E). exists n. unfold run_fn. rewrite P, E. destruct r. reflexivity. Qed.

(** One fuel for all error records. *)
Lemma call_fuel m id rl s r evs : mode_ok G m -> find_rule G id = Some rl -> suffix t s -> ep m (IE (rexpr rl)) s r evs ->
  exists k, forall ei, exists st, run_fn (gen_prog G) xf k m id (run_at t s ei) = Done (st, acts evs) /\ result_at ei r evs st.
Proof.
  intros Mm F Hs H. destruct (call_at Mm F Hs H (str_stream t, [])) as (st0 & C0 & _). destruct (calls_run C0) as (k & R0). exists k. intros ei.
  destruct (call_at Mm F Hs H ei) as (st & C & RA). destruct (calls_run C) as (k1 & R1). exists st. split; [|exact RA].
  pose proof (@run_fn_blind (gen_prog G) xf BX k m id (run_at t s (str_stream t, [])) (run_at t s ei) ltac:(repeat split)) as B. rewrite R0 in B.
  destruct (run_fn (gen_prog G) xf k m id (run_at t s ei)) as [q| | |] eqn:R; cbn [orel] in B; try contradiction.
  assert (L1 : k <= k + k1) by lia. assert (L2 : k1 <= k + k1) by lia. pose proof (run_fn_mono L1 R) as Q1. pose proof (run_fn_mono L2 R1) as Q2. congruence.
Qed.
Lemma rule_fuel id rl : find_rule G id = Some rl -> exists K, forall m s, suffix t s -> exists r evs, ep (md m) (IE (rexpr rl)) s r evs /\
  forall k, K <= k -> forall ei, exists st, run_fn (gen_prog G) xf k (md m) id (run_at t s ei) = Done (st, acts evs) /\ result_at ei r evs st.
Proof.
  intros F. set (Q := fun (q : mode * text) (K : nat) => suffix t (snd q) -> exists r evs, ep (md (fst q)) (IE (rexpr rl)) (snd q) r evs /\
    forall k, K <= k -> forall ei, exists st, run_fn (gen_prog G) xf k (md (fst q)) id (run_at t (snd q) ei) = Done (st, acts evs) /\ result_at ei r evs st).
  destruct (@common_fuel _ (list_prod [Rec; Par] (suffixes t)) Q) as (K & HK).
  - intros [m s] k k' L H Hs. destruct (H Hs) as (r & evs & E & R). exists r, evs. split; [exact E|]. intros k2 L2. apply R. lia.
  - intros [m s] I0. assert (Hs : suffix t s).
    { apply in_prod_iff in I0. destruct I0 as [_ I0]. clear - I0. induction t as [|c t' IH]; cbn [suffixes] in I0; [destruct I0 as [<-|[]]; exists []; reflexivity|].
      destruct I0 as [<-|I0]; [exists []; reflexivity|]. destruct (IH I0) as (pre & ->). exists (c :: pre). reflexivity. }
    destruct (ep_total HR s (MO m) (in_rules_rule F)) as (r & evs & E). destruct (call_fuel (MO m) F Hs E) as (k & R). exists k. intros _. exists r, evs. split; [exact E|].
    intros k2 L ei. destruct (R ei) as (st & R1 & R2). exists st. split; [exact (run_fn_mono L R1)|exact R2].
  - exists K. intros m s Hs. apply (HK (m, s)); [|exact Hs]. apply in_prod_iff. split; [destruct m; [left|right; left]; reflexivity|exact (suffixes_all Hs)].
Qed.

(** ---------------- the functions, seen from outside ---------------- *)
Variables (path used : list string).
Hypothesis US : forall n, In n used -> exists rl, find_rule G n = Some rl.
Hypothesis CO : forall n rl s s1, In n used -> find_rule G n = Some rl -> matches G (ford_ext X) (IE (rexpr rl)) s (Some s1) -> length s1 < length s.
Variables (X0 : extern) (xf0 : mode -> list string -> pst -> outcome (pst * alog)).
Hypothesis XO : ext_ok X0 xf0 t.
Hypothesis XS : ext_sane X0.
Hypothesis XC : ext_consuming (ford_ext X0).

Definition one_value (m : mode) (r : option (text * list value)) : option (text * list value) :=
  match m with Rec => r | Par => option_map (fun q => (fst q, [tup (snd q)])) r end.
Definition joined : extern := fun m p s r evs =>
  match import path used p with
  | Some n => exists rl r0, find_rule G n = Some rl /\ ep (md m) (IE (rexpr rl)) s r0 evs /\ r = one_value m r0
  | None => X0 m p s r evs
  end.
Lemma joined_sane : ext_sane joined.
Proof.
  pose proof (se_sane (rd_setting HR)) as SX. split; unfold joined.
  - intros m p s r1 e1 r2 e2 H1 H2. destruct (import path used p) as [n|]; [|exact (xs_det XS H1 H2)].
    destruct H1 as (rl & q1 & F & E1 & ->), H2 as (rl2 & q2 & F2 & E2 & ->). assert (rl2 = rl) as -> by congruence. destruct (ep_det SX E1 E2) as [-> ->]. auto.
  - intros p s r evs H. destruct (import path used p) as [n|]; [|exact (xs_rec XS H)]. destruct H as (rl & q & F & E & ->). cbn [one_value]. rewrite MR in E. destruct (rec_silent SX E) as [A B].
    split; [exact A|]. intros [s1 vs] ->. cbn [snd]. exact (B _ _ eq_refl).
  - intros p s r evs H. destruct (import path used p) as [n|]; [|exact (xs_par XS H)]. destruct H as (rl & q & F & E & ->).
    assert (K : exists q', ep Rec (IE (rexpr rl)) s q' (only_errs evs) /\ forget q = forget q').
    { destruct (md Par); [|destruct (par_rec SX E) as (q' & E' & FG); exists q'; auto]. destruct (rec_silent SX E) as [A _]. rewrite A. exists q. auto. }
    destruct K as (q' & E' & FG). exists rl, q'. split; [exact F|]. split; [rewrite MR; exact E'|].
    cbn [one_value]. destruct (rec_silent SX E') as [_ B]. destruct q as [[s1 vs]|], q' as [[s1' vs']|]; try discriminate FG; [|reflexivity]. cbn in FG |- *. injection FG as ->. rewrite (B _ _ eq_refl). reflexivity.
  - intros p s r evs H. destruct (import path used p) as [n|]; [|exact (xs_both XS H)]. destruct H as (rl & q & F & E & ->). destruct (ep_total HR s (MO Par) (in_rules_rule F)) as (r' & evs' & E').
    exists (one_value Par r'), evs', rl, r'. auto.
Qed.
Lemma joined_ford p : match import path used p with
  | Some n => exists rl, find_rule G n = Some rl /\ forall s r, ford_ext joined p s r <-> matches G (ford_ext X) (IE (rexpr rl)) s r
  | None => forall s r, ford_ext joined p s r <-> ford_ext X0 p s r
  end.
Proof.
  unfold ford_ext at 1, joined. destruct (import path used p) as [n|] eqn:IM.
  - destruct (import_some IM) as [_ IU]. destruct (US IU) as (rl & F). exists rl. split; [exact F|]. intros s r. split.
    + intros (r' & evs & (rl2 & q & F2 & E & ->) & <-). assert (rl2 = rl) as -> by congruence. rewrite MR in E. exact (ep_matches (se_sane (rd_setting HR)) E).
    + intros M. destruct (matches_ep (off t) M) as (r' & evs & E & Q). exists r', evs. split; [|exact Q]. exists rl, r'. rewrite MR. auto.
  - intros s r. unfold ford_ext at 1. rewrite IM. reflexivity.
Qed.
Lemma joined_consuming : ext_consuming (ford_ext joined).
Proof.
  split.
  - intros p s. pose proof (joined_ford p) as J. destruct (import path used p) as [n|] eqn:IM.
    + destruct J as (rl & F & J). destruct (ford_total HR s (in_rules_rule F)) as (r & M). exists r. apply J, M.
    + destruct (ec_total XC p s) as (r & M). exists r. apply J, M.
  - intros p s s1 H. pose proof (joined_ford p) as J. destruct (import path used p) as [n|] eqn:IM.
    + destruct J as (rl & F & J). destruct (import_some IM) as [_ IU]. apply (CO IU F), J, H.
    + apply (ec_consume XC (p := p)), J, H.
Qed.
Theorem joined_ok : exists K, forall k, K <= k -> ext_ok joined (linked_by md (gen_prog G) xf k path used xf0) t.
Proof.
  set (Q := fun (n : string) (K : nat) => forall rl, find_rule G n = Some rl -> forall m s, suffix t s -> exists r evs, ep (md m) (IE (rexpr rl)) s r evs /\
    forall k, K <= k -> forall ei, exists st, run_fn (gen_prog G) xf k (md m) n (run_at t s ei) = Done (st, acts evs) /\ result_at ei r evs st).
  destruct (@common_fuel _ used Q) as (K & HK).
  - intros n k k' L H rl F m s Hs. destruct (H rl F m s Hs) as (r & evs & E & R). exists r, evs. split; [exact E|]. intros k2 L2. apply R. lia.
  - intros n IU. destruct (US IU) as (rl & F). destruct (rule_fuel F) as (K & HK). exists K. intros rl2 F2. assert (rl2 = rl) as -> by congruence. exact HK.
  - exists K. intros k L m p s r evs Hs H. unfold joined in H. unfold linked_by. destruct (import path used p) as [n|] eqn:IM; [|exact (XO Hs H)].
    destruct H as (rl & q & F & E & ->). destruct (import_some IM) as [_ IU]. destruct (HK n IU rl F m s Hs) as (r2 & evs2 & E2 & R). destruct (ep_det (se_sane (rd_setting HR)) E E2) as [<- <-].
    destruct q as [[s1 vs]|]; cbn [one_value option_map fst snd].
    + assert (V : exists vs', one_value m (Some (s1, vs)) = Some (s1, vs') /\ length vs' = match m with Rec => 0 | Par => 1 end /\ tup vs' = match m with Rec => tup vs' | Par => tup vs end).
      { destruct m; cbn [one_value option_map fst snd]; [|exists [tup vs]; auto]. exists vs. rewrite MR in E. destruct (rec_silent (se_sane (rd_setting HR)) E) as [_ B]. specialize (B _ _ eq_refl). cbn [unit_vals] in B. subst vs. auto. }
      destruct V as (vs' & EV & LV & TV). destruct m; cbn [one_value option_map fst snd] in *; injection EV as <-; (split; [destruct (ep_suffix (se_ext (rd_setting HR)) E Hs) as [pre ->]; exists pre; reflexivity|]);
        (split; [exact LV|]); intros ei; destruct (R k L ei) as (st & RN & ->); (eexists; split; [exact RN|]); [discriminate|intros _; reflexivity].
    + destruct m; intros ei; destruct (R k L ei) as (st & RN & (cur & ->)); exists cur, None; exact RN.
Qed.
End Link.
