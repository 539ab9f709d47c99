(** Type inference on the grammars of the front end: the hypotheses of the previous files hold, and
    the typed grammar suits the code generator. *)
From Coq Require Import Permutation.
From Verif Require Import Base Grammar PegSpec Target Compile CompileShape GenTotal WellFormed Analysis AnalysisFacts Typing TypeRules SurfaceFacts
  RefFacts DepthFacts TypingSound TypingFit GenAgree.
Set Implicit Arguments. Unset Strict Implicit.
Open Scope string_scope. Open Scope nat_scope. Open Scope list_scope.

(** What the parser of grammars builds (front/parser.rs, front/ast.rs:40-45) and the first analyses
    check (analysis/duplicate.rs, middle/mod.rs:38-47, analysis/resolve.rs): children are allocated
    before their parent, every expression is used once, rule names are distinct and there is one, calls
    are resolved, no empty sequence, choice or class, types are invisible, unit or Rust types, the range
    of an expression without data. *)
Record well_built (G : grammar) : Prop := {
  wb_children : forall i e, expr_of G i = Some e -> Forall (fun j => j < i) (children e);
  wb_once : Permutation (map rexpr (rules G) ++ flat_map children (exprs G)) (seq 0 (length (exprs G)));
  wb_names : NoDup (map rname (rules G));
  wb_some : rules G <> [];
  wb_nt : forall i id, expr_of G i = Some (ENT id) -> exists rl, find_rule G id = Some rl;
  wb_seq : forall i, expr_of G i <> Some (ESeq []);
  wb_alt : forall i, expr_of G i <> Some (EAlt []);
  wb_class : forall i, expr_of G i <> Some (EClass []);
  wb_asc : forall i j t, expr_of G i = Some (EAsc j t) -> t = IInvisible \/ t = IRegular TUnit \/ exists s, t = IRegular (TRust s);
  wb_range : forall i j, expr_of G i = Some (ERange j) -> exists k, expr_of G j = Some (EAsc k (IRegular TUnit))
}.

Lemma nth_in_flat (A B : Type) (f : A -> list B) l : NoDup (flat_map f l) ->
  forall p q a b c, nth_error l p = Some a -> nth_error l q = Some b -> In c (f a) -> In c (f b) -> p = q.
Proof.
  induction l as [|x l IH]; intros ND p q a b c Ep Eq Ia Ib; [destruct p; discriminate|]. cbn [flat_map] in ND.
  assert (SEP : forall d, In d (f x) -> In d (flat_map f l) -> False).
  { clear - ND. induction (f x) as [|y r IHr]; intros d H1 H2; [destruct H1|]. cbn in ND. inversion ND as [|? ? NI ND']; subst.
    destruct H1 as [->|H1]; [apply NI, in_or_app; right; exact H2|exact (IHr ND' d H1 H2)]. }
  assert (ND' : NoDup (flat_map f l)) by (clear - ND; induction (f x); [exact ND|inversion ND; auto]).
  destruct p as [|p], q as [|q]; cbn in Ep, Eq; [reflexivity| | |].
  - exfalso. injection Ep as ->. apply (SEP c Ia). apply in_flat_map. exists b. split; [exact (nth_error_In _ _ Eq)|exact Ib].
  - exfalso. injection Eq as ->. apply (SEP c Ib). apply in_flat_map. exists a. split; [exact (nth_error_In _ _ Ep)|exact Ia].
  - f_equal. exact (IH ND' p q a b c Ep Eq Ia Ib).
Qed.

(** What the grammar [G'] typed from [G] needs of its recursive rules: a rule in [bad] has no data; and a rule that depends
    for its type on itself has no data, or is linear and all its choices with a branch that calls it have as many values as
    the rule. *)
Definition rec_ok (G G' : grammar) (self : string -> Prop) (bad : string -> bool) : Prop := forall rl, In rl (rules G) ->
  is_unit G' (rexpr rl) = true \/
  (bad (rname rl) = false /\ (self (rname rl) -> linear G (rname rl) /\
     forall i l c, expr_of G i = Some (EAlt l) -> In c l -> spos G (rexpr rl) c -> calls G (rname rl) c -> card G' i = card G' (rexpr rl))).

Lemma spos_trans G x y z : spos G x y -> spos G y z -> spos G x z.
Proof. induction 1 as [x|x e c y Ex Ic R IH]; [auto|]. intros R2. exact (sp_child Ex Ic (IH R2)). Qed.

Section Top.
Variable G : grammar.
Hypothesis WB : well_built G.
Local Notation N := (length (exprs G)).
Local Notation IG := (igrammar G).

Lemma ig_len : length (exprs IG) = S N.
Proof. cbn [igrammar exprs]. rewrite app_length. cbn. lia. Qed.
Lemma ig_last : length (exprs IG) - 1 = N. Proof. rewrite ig_len. lia. Qed.
Lemma ig_low i : i < N -> expr_of IG i = expr_of G i.
Proof. intros L. unfold expr_of. cbn [igrammar exprs]. apply nth_error_app1, L. Qed.
Lemma ig_top : expr_of IG N = Some (ESpan 0).
Proof. unfold expr_of. cbn [igrammar exprs]. rewrite nth_error_app2, Nat.sub_diag by lia. reflexivity. Qed.
Lemma ig_cases i e : expr_of IG i = Some e -> (i < N /\ expr_of G i = Some e) \/ (i = N /\ e = ESpan 0).
Proof.
  intros H. assert (L : i < length (exprs IG)) by (apply nth_error_Some; unfold expr_of in H; congruence). rewrite ig_len in L.
  destruct (Nat.eq_dec i N) as [->|D]; [right; rewrite ig_top in H; split; [reflexivity|congruence]|left]. rewrite ig_low in H by lia. split; [lia|exact H].
Qed.

Lemma root_low rl : In rl (rules G) -> rexpr rl < N.
Proof.
  intros I. assert (X : In (rexpr rl) (seq 0 N)); [|apply in_seq in X; lia].
  eapply Permutation_in; [exact (wb_once WB)|]. apply in_or_app. left. apply in_map, I.
Qed.
Lemma some_expr : 0 < N.
Proof. destruct (rules G) as [|rl rs] eqn:E; [destruct (wb_some WB E)|]. assert (rexpr rl < N) by (apply root_low; rewrite E; left; reflexivity). lia. Qed.
Lemma all_once : NoDup (map rexpr (rules G) ++ flat_map children (exprs G)).
Proof. eapply Permutation_NoDup; [apply Permutation_sym, (wb_once WB)|apply seq_NoDup]. Qed.
Lemma NoDup_app_r (A : Type) (l1 l2 : list A) : NoDup (l1 ++ l2) -> NoDup l2.
Proof. induction l1; [auto|]. intros H. inversion H; auto. Qed.
Lemma NoDup_app_sep (A : Type) (l1 l2 : list A) x : NoDup (l1 ++ l2) -> In x l1 -> In x l2 -> False.
Proof.
  induction l1 as [|a l1 IH]; intros ND I1 I2; [destruct I1|]. inversion ND as [|? ? NI ND']; subst. destruct I1 as [->|I1]; [apply NI, in_or_app; auto|auto].
Qed.

Lemma ig_typable : typable IG.
Proof.
  pose proof some_expr. split.
  - intros i e Ee. destruct (ig_cases Ee) as [[L E]|[-> ->]]; [exact (wb_children WB E)|]. cbn [children]. constructor; [lia|constructor].
  - intros i id Ee. destruct (ig_cases Ee) as [[L E]|[_ Q]]; [exact (wb_nt WB E)|discriminate].
  - intros i Ee. destruct (ig_cases Ee) as [[L E]|[_ Q]]; [exact (wb_seq WB E)|discriminate].
  - intros i Ee. destruct (ig_cases Ee) as [[L E]|[_ Q]]; [exact (wb_alt WB E)|discriminate].
  - intros i j t Ee. destruct (ig_cases Ee) as [[L E]|[_ Q]]; [exact (wb_asc WB E)|discriminate].
  - intros i j Ee. destruct (ig_cases Ee) as [[L E]|[_ Q]]; [|discriminate]. destruct (wb_range WB E) as (k & Ek). exists k.
    rewrite ig_low; [exact Ek|]. apply nth_error_Some. unfold expr_of in Ek. congruence.
  - intros rl I. rewrite ig_len. pose proof (root_low I). lia.
Qed.
Lemma ig_kid p c : kid IG p c <-> exists e, expr_of G p = Some e /\ In c (children e).
Proof.
  unfold kid. rewrite ig_last. split.
  - intros (L & e & Ee & Ic). rewrite ig_low in Ee by exact L. eauto.
  - intros (e & Ee & Ic). assert (L : p < N) by (apply nth_error_Some; unfold expr_of in Ee; congruence). split; [exact L|]. exists e. rewrite ig_low by exact L. auto.
Qed.
Lemma ig_forest : forest IG.
Proof.
  split.
  - intros p q c Kp Kq. apply ig_kid in Kp, Kq. destruct Kp as (a & Ea & Ia), Kq as (b & Eb & Ib).
    exact (nth_in_flat (NoDup_app_r all_once) Ea Eb Ia Ib).
  - intros x p (rl & Irl & <-) K. apply ig_kid in K. destruct K as (e & Ee & Ic). refine (@NoDup_app_sep _ _ _ (rexpr rl) all_once _ _).
    + apply in_map. exact Irl.
    + apply in_flat_map. exists e. split; [exact (nth_error_In _ _ Ee)|exact Ic].
  - intros x (rl & Irl & <-). rewrite ig_last. exact (root_low Irl).
  - intros i L. rewrite ig_last in L. assert (X : In i (seq 0 N)) by (apply in_seq; lia).
    pose proof (Permutation_in _ (Permutation_sym (wb_once WB)) X) as Y. apply in_app_iff in Y. destruct Y as [Y|Y].
    + left. apply in_map_iff in Y. destruct Y as (rl & <- & Irl). exists rl. auto.
    + right. apply in_flat_map in Y. destruct Y as (e & Ie & Ic). apply In_nth_error in Ie. destruct Ie as (p & Ep). exists p. apply ig_kid. exists e. auto.
  - exact (wb_names WB).
Qed.

(** The rule an expression belongs to, searched upwards. *)
Definition has_child (i p : nat) : bool := match nth_error (exprs G) p with Some e => existsb (Nat.eqb i) (children e) | None => false end.
Fixpoint owner (fuel i : nat) : string :=
  match find (fun rl => rexpr rl =? i) (rules G) with
  | Some rl => rname rl
  | None => match fuel with
            | 0 => ""
            | S k => match find (has_child i) (seq 0 N) with Some p => owner k p | None => "" end
            end
  end.
Definition own (i : nat) : string := let j := if i =? N then 0 else i in owner (N - j) j.
Lemma has_child_ok i p : has_child i p = true <-> kid IG p i.
Proof.
  rewrite ig_kid. unfold has_child, expr_of. destruct (nth_error (exprs G) p) as [e|].
  - rewrite existsb_exists. split; [intros (x & Ix & Q); apply Nat.eqb_eq in Q; subst x; eauto|].
    intros (e' & Q & I). injection Q as <-. exists i. split; [exact I|apply Nat.eqb_refl].
  - split; [discriminate|]. intros (e' & Q & _). discriminate.
Qed.
Lemma kid_bounds p i : kid IG p i -> i < p /\ p < N.
Proof. intros K. split; [exact (kid_lt ig_typable K)|]. destruct K as (L & _). rewrite ig_last in L. exact L. Qed.
Lemma owner_kid k p i : kid IG p i -> owner (S k) i = owner k p.
Proof.
  intros K. cbn [owner]. destruct (find (fun rl => rexpr rl =? i) (rules G)) as [rl|] eqn:F.
  - exfalso. apply find_some in F. destruct F as [I Q]. apply Nat.eqb_eq in Q. refine (fo_root ig_forest _ K). exists rl. auto.
  - destruct (find (has_child i) (seq 0 N)) as [q|] eqn:F2.
    + apply find_some in F2. destruct F2 as [_ Q]. apply has_child_ok in Q. rewrite (fo_parent ig_forest K Q). reflexivity.
    + exfalso. pose proof (find_none _ _ F2 p) as X. rewrite (proj2 (has_child_ok i p) K) in X. destruct (kid_bounds K). discriminate X. apply in_seq. lia.
Qed.
Lemma owner_fuel k1 : forall k2 i, i < N -> N - i <= k1 -> N - i <= k2 -> owner k1 i = owner k2 i.
Proof.
  induction k1 as [|k1 IH]; intros k2 i L H1 H2; [lia|]. destruct k2 as [|k2]; [lia|].
  destruct (fo_cover ig_forest (i := i)) as [R|(p & K)]; [rewrite ig_last; exact L| |].
  - destruct R as (rl & Irl & <-). cbn [owner].
    destruct (find (fun rl0 => rexpr rl0 =? rexpr rl) (rules G)) as [r|] eqn:F; [reflexivity|]. exfalso.
    pose proof (find_none _ _ F rl Irl) as X. cbv beta in X. rewrite Nat.eqb_refl in X. discriminate.
  - destruct (kid_bounds K). rewrite (owner_kid k1 K), (owner_kid k2 K). apply IH; lia.
Qed.
Lemma own_low i : i < N -> own i = owner (N - i) i.
Proof. intros L. unfold own. destruct (Nat.eqb_spec i N); [lia|reflexivity]. Qed.
Lemma find_rexpr rl : In rl (rules G) -> find (fun rl0 => rexpr rl0 =? rexpr rl) (rules G) = Some rl.
Proof.
  intros I. destruct (find (fun rl0 => rexpr rl0 =? rexpr rl) (rules G)) as [r|] eqn:F.
  - apply find_some in F. destruct F as [Ir Q]. apply Nat.eqb_eq in Q. f_equal.
    assert (ND : NoDup (map rexpr (rules G))).
    { pose proof all_once as A. revert A. generalize (flat_map children (exprs G)). intros l A. clear - A. induction (map rexpr (rules G)) as [|x r IH]; [constructor|].
      inversion A as [|? ? NI A']; subst. constructor; [intros X; apply NI, in_or_app; auto|exact (IH A')]. }
    clear - I Ir Q ND. induction (rules G) as [|a l IH]; [destruct I|]. cbn [map] in ND. inversion ND as [|? ? NI ND']; subst.
    destruct I as [->|I], Ir as [->|Ir]; [reflexivity| | |exact (IH I Ir ND')].
    + exfalso. apply NI. rewrite <- Q. apply in_map, Ir.
    + exfalso. apply NI. rewrite Q. apply in_map, I.
  - exfalso. pose proof (find_none _ _ F rl I) as X. cbv beta in X. rewrite Nat.eqb_refl in X. discriminate.
Qed.
Lemma ig_owned : owned IG own.
Proof.
  split.
  - intros rl I. change (In rl (rules G)) in I. rewrite own_low by exact (root_low I). destruct (N - rexpr rl); cbn [owner]; rewrite (find_rexpr I); reflexivity.
  - intros i e j Ee Ij. destruct (ig_cases Ee) as [[L E]|[-> ->]].
    + assert (K : kid IG i j) by (apply ig_kid; eauto). destruct (kid_bounds K). rewrite !own_low by lia. destruct (N - j) as [|m] eqn:D; [lia|].
      rewrite (owner_kid m K). apply owner_fuel; lia.
    + cbn [children] in Ij. destruct Ij as [<-|[]]. unfold own. rewrite Nat.eqb_refl. pose proof some_expr. destruct (Nat.eqb_spec 0 N); [lia|reflexivity].
Qed.
Lemma ig_blank E : blank IG (itable G E).
Proof.
  unfold blank, itable. rewrite app_length, repeat_length. cbn [length]. replace (N + 1 - 1) with N by lia. split; [rewrite ig_len; lia|]. split.
  - exists (span_ty E). rewrite nth_error_app2, repeat_length, Nat.sub_diag by (rewrite repeat_length; lia). reflexivity.
  - intros i L. rewrite nth_error_app1 by (rewrite repeat_length; exact L). apply nth_error_repeat, L.
Qed.
Lemma spos_ig x y : x < N -> spos IG x y -> spos G x y.
Proof.
  intros L R. induction R as [x|x e c y Ex Ic R IH]; [constructor|]. rewrite ig_low in Ex by exact L.
  refine (sp_child Ex Ic (IH _)). pose proof (wb_children WB Ex) as F. rewrite Forall_forall in F. specialize (F c (visits_children Ic)). cbv beta in F. lia.
Qed.
Lemma spos_low x y : x < N -> spos G x y -> y < N.
Proof.
  intros L R. induction R as [x|x e c y Ex Ic R IH]; [exact L|]. apply IH.
  pose proof (wb_children WB Ex) as F. rewrite Forall_forall in F. specialize (F c (visits_children Ic)). cbv beta in F. lia.
Qed.
Lemma ig_layered rk self bad : layered G rk self bad -> layered IG rk self bad.
Proof.
  intros H rl i id Irl Bl R Ee. pose proof (root_low Irl) as L. pose proof (spos_ig L R) as R'. rewrite ig_low in Ee by exact (spos_low L R').
  exact (H rl i id Irl Bl R' Ee).
Qed.
Lemma calls_ig id x : x < N -> calls IG id x -> calls G id x.
Proof.
  intros L (j & R & Ej). pose proof (spos_ig L R) as R'. exists j. split; [exact R'|]. rewrite ig_low in Ej by exact (spos_low L R'). exact Ej.
Qed.
Lemma ig_linear id : linear G id -> linear IG id.
Proof.
  intros H rl i l Irl RN R Ee p q c d Ec Ed Cc Cd. pose proof (root_low Irl) as L. pose proof (spos_ig L R) as R'. pose proof (spos_low L R') as Li.
  rewrite ig_low in Ee by exact Li. pose proof (wb_children WB Ee) as F. rewrite Forall_forall in F. cbn [children] in F.
  pose proof (F c (nth_error_In _ _ Ec)) as Lc. pose proof (F d (nth_error_In _ _ Ed)) as Ld. cbv beta in Lc, Ld.
  refine (H rl i l Irl RN R' Ee p q c d Ec Ed (calls_ig _ Cc) (calls_ig _ Cd)); lia.
Qed.
Lemma ig_fits self bad r : fits G self bad r -> fits IG self bad r.
Proof. intros [A B]. split; [exact A|]. intros S1. apply ig_linear, B, S1. Qed.

(** ---------------- the typed grammar ---------------- *)
Variable E : tenv.
Lemma infer_inv fuel G' : type_inference E fuel G = WOk (Some G') -> exists st1 st2 st3 out,
  surface IG E fuel (mkT (itable G E) false) = WOk st1 /\ terr st1 = false /\ reduce_all_rec IG st1 = WOk st2 /\
  depth IG E fuel fuel st2 = WOk st3 /\ terr st3 = false /\ reduce_finals (tys st3) = WOk out /\ rules_have_type E (tys st3) (rules G) = WOk true
  /\ G' = mkG (rules G) (exprs G ++ [ESpan 0]) out.
Proof.
  unfold type_inference, infer_from. intros H. apply wbind_ok in H. destruct H as (r & H & Q). apply WOk_inj' in Q.
  destruct r as [ts|]; [|discriminate]. injection Q as <-. apply wbind_ok in H. destruct H as (st1 & H1 & H). destruct (terr st1) eqn:E1; [discriminate|].
  apply wbind_ok in H. destruct H as (st2 & H2 & H). apply wbind_ok in H. destruct H as (st3 & H3 & H). destruct (terr st3) eqn:E3; [discriminate|].
  apply wbind_ok in H. destruct H as (out & H4 & H). apply wbind_ok in H. destruct H as (ok & H5 & H). apply WOk_inj' in H.
  destruct ok; [|discriminate]. injection H as <-. exists st1, st2, st3, out. repeat (split; [assumption|]). reflexivity.
Qed.

Lemma reduce_final_card t u : reduce_final t = WOk u -> ty_card u = icard t /\ ty_is_unit u = is_unit_kind t.
Proof. destruct t as [| | | |[]]; cbn; intros H; try discriminate; injection H as <-; auto. Qed.

(** The typed grammar, with a harmless expression in the slot of the type of spans, which no rule reaches. *)
Definition plug (G' : grammar) : grammar := mkG (rules G') (exprs G ++ [EAny]) (types G').
Theorem typed_coherent fuel G' rk self bad : type_inference E fuel G = WOk (Some G') -> layered G rk self bad ->
  rec_ok G G' self bad ->
  (forall i l j ts s, expr_of G' i = Some (EAlt l) -> In j l -> ty_of G' i = Some (TTuple ts) -> ty_of G' j <> Some (TRust s)) ->
  arena_ok (plug G') /\ coherent (plug G') /\ (forall m rl, In rl (rules G) -> gen_rule G' m rl = gen_rule (plug G') m rl)
  /\ (forall m id, gen_prog G' m id = gen_prog (plug G') m id).
Proof.
  intros H HL HU HR. destruct (infer_inv H) as (st1 & st2 & st3 & out & H1 & E1 & H2 & H3 & E3 & H4 & _ & ->). clear H.
  destruct (inference_fit ig_typable ig_owned ig_forest (ig_layered HL) (ig_blank E) H1 H2 H3 E3) as [D3 DN]. rewrite ig_last in DN.
  pose proof (iv_len (di_inv D3)) as LEN. rewrite ig_len in LEN.
  destruct (reduce_finals_at H4) as [LO FIN]. set (T := tys st3) in *.
  set (Gs := mkG (rules G) (exprs G ++ [ESpan 0]) out) in *. change (plug Gs) with (mkG (rules G) (exprs G ++ [EAny]) out). set (Ga := mkG (rules G) (exprs G ++ [EAny]) out).
  assert (AT : forall i, i < S N -> exists t u, nth_error T i = Some t /\ ty_of Gs i = Some u /\ reduce_final t = WOk u /\ ty_card u = icard t /\ ty_is_unit u = is_unit_kind t).
  { intros i L. destruct (nth_error T i) as [t|] eqn:Et; [|apply nth_error_None in Et; lia]. destruct (FIN i t Et) as (u & Eu & Q). exists t, u.
    split; [reflexivity|]. split; [exact Eu|]. split; [exact Q|]. exact (reduce_final_card Q). }
  assert (CARD : forall i, i < S N -> card Ga i = cardof T i).
  { intros i L. destruct (AT i L) as (t & u & Et & Eu & _ & C & _). unfold card, cardof. change (ty_of Ga i) with (ty_of Gs i). rewrite Eu, Et. exact C. }
  assert (UNIT : forall i, i < S N -> (is_unit Ga i = true <-> unit_at T i)).
  { intros i L. destruct (AT i L) as (t & u & Et & Eu & _ & _ & U). unfold is_unit. change (ty_of Ga i) with (ty_of Gs i). rewrite Eu, U. split.
    - intros Q. exists t. auto.
    - intros (v & Ev & Uv). congruence. }
  assert (OLD : forall i, i < N -> nth_error (exprs G ++ [ESpan 0]) i = nth_error (exprs G ++ [EAny]) i).
  { intros i L. rewrite !nth_error_app1 by exact L. reflexivity. }
  assert (EA : forall i e, expr_of Ga i = Some e -> (i < N /\ expr_of G i = Some e) \/ (i = N /\ e = EAny)).
  { intros i e Ee. unfold expr_of in Ee. cbn [Ga exprs] in Ee. assert (L : i < S N) by (replace (S N) with (length (exprs G ++ [EAny])) by (rewrite app_length; cbn; lia); apply nth_error_Some; congruence).
    destruct (Nat.eq_dec i N) as [->|D].
    - right. rewrite nth_error_app2, Nat.sub_diag in Ee by lia. split; [reflexivity|]. cbn in Ee. congruence.
    - left. rewrite nth_error_app1 in Ee by lia. split; [lia|exact Ee]. }
  assert (ARENA : arena_ok Ga).
  { split.
    - intros i e Ee. destruct (EA i e Ee) as [[L Q]|[-> ->]]; [exact (wb_children WB Q)|constructor].
    - cbn [Ga types exprs]. rewrite app_length, LO. fold T. cbn [length]. lia.
    - intros i Ee. destruct (EA i _ Ee) as [[L Q]|[_ Q]]; [exact (wb_alt WB Q)|discriminate].
    - intros i Ee. destruct (EA i _ Ee) as [[L Q]|[_ Q]]; [exact (wb_class WB Q)|discriminate].
    - intros rl I. cbn [Ga exprs]. rewrite app_length. cbn [length]. change (In rl (rules G)) in I. pose proof (root_low I). lia. }
  assert (COH : coherent Ga).
  { intros i e Ee U. destruct (EA i e Ee) as [[L Q]|[-> ->]].
    2: { cbn [coh_expr]. rewrite CARD by lia. unfold cardof. destruct (iv_span (di_inv D3)) as (s & ES). fold T in ES, LEN. rewrite LEN in ES.
         replace (S N - 1) with N in ES by lia. rewrite ES. reflexivity. }
    assert (NU : ~ unit_at T i) by (intros X; apply (UNIT i ltac:(lia)) in X; congruence).
    destruct (AT i ltac:(lia)) as (t & u & Et & Eu & FT & C & UU).
    assert (Ut : is_unit_kind t = false) by (destruct (is_unit_kind t) eqn:X; [exfalso; apply NU; exists t; auto|reflexivity]).
    assert (St : settledb t = true) by (destruct t; try discriminate; reflexivity).
    assert (DOWN : forall x y, x < N -> reaches (exprs IG) x y -> unit_at T x -> unit_at T y).
    { intros x y Lx R Ux. induction R as [x|x f c y Ex Ic R IH]; [exact Ux|].
      assert (K : kid IG x c) by (split; [rewrite ig_last; exact Lx|exists f; auto]). destruct (kid_bounds K) as [L1 _].
      apply IH; [lia|]. exact (dn_unit (DN x Lx) Ux K). }
    assert (OWN : exists rl, In rl (rules G) /\ own i = rname rl /\ ~ unit_at T (rexpr rl) /\ bad (rname rl) = false /\ (self (rname rl) -> linear G (rname rl) /\
      forall i l c, expr_of G i = Some (EAlt l) -> In c l -> spos G (rexpr rl) c -> calls G (rname rl) c -> card Gs i = card Gs (rexpr rl))).
    { destruct (covered ig_typable ig_forest (i := i)) as (x & (rl & Irl & <-) & R); [rewrite ig_last; exact L|]. change (In rl (rules G)) in Irl.
      pose proof (root_low Irl) as Lr. exists rl. split; [exact Irl|]. split; [rewrite (reaches_own ig_owned R); exact (ow_root ig_owned Irl)|].
      assert (NR : ~ unit_at T (rexpr rl)) by (intros D; apply NU; exact (DOWN _ _ Lr R D)). split; [exact NR|].
      destruct (HU rl Irl) as [D|D]; [|exact D]. destruct NR. apply (UNIT (rexpr rl) ltac:(lia)). exact D. }
    destruct OWN as (rl0 & Irl0 & OI & NR0 & BF0 & SF0).
    assert (GOOD : fits IG self bad (own i)).
    { apply ig_fits. rewrite OI. split; [exact BF0|intros X; exact (proj1 (SF0 X))]. }
    assert (Qi : expr_of IG i = Some e) by (rewrite ig_low by exact L; exact Q).
    pose proof (di_fit D3 (y := i) (e := e) (t := t) ltac:(rewrite ig_last; exact L) Qi Et St Ut GOOD) as NOK'.
    assert (NOK : nodecard IG own T e t).
    { refine (nodeok_card (fits IG self bad) (span_at (di_inv D3)) _ Ut NOK'). destruct (di_shape D3) as (_ & _ & KI).
      eapply Forall_impl; [|exact (KI i e t ltac:(rewrite ig_last; exact L) Qi Et ltac:(intros ->; discriminate) Ut)].
      intros c (w & Ew & Nw). exists w. split; [exact Ew|]. split; [exact Nw|exact (di_rec D3 Ew)]. }
    clear NOK'.
    assert (CI : card Ga i = icard t) by (rewrite CARD by lia; unfold cardof; rewrite Et; reflexivity).
    pose proof (wb_children WB Q) as CH. rewrite Forall_forall in CH.
    assert (CC : forall c, In c (children e) -> card Ga c = cardof T c) by (intros c Ic; apply CARD; specialize (CH c Ic); cbv beta in CH; lia).
    destruct e as [lit| |cls|id|p|l|l|c|c|c|c|c|c b f|c v|c|c]; cbn [nodecard coh_expr children] in *; try contradiction; try (rewrite CI; exact NOK).
    - destruct NOK as (rl & w & F & Ew & Q1 & Q2 & Q3). exists rl. split; [exact F|]. assert (Lr : rexpr rl < N) by exact (root_low (proj2 (find_rule_name F))).
      split; [rewrite CARD, CI by lia; unfold cardof; rewrite Ew; exact Q1|]. destruct (is_unit Ga (rexpr rl)) eqn:X; [|reflexivity].
      apply (UNIT (rexpr rl) ltac:(lia)) in X. destruct X as (w' & Ew' & Uw). congruence.
    - rewrite CI, NOK. f_equal. apply map_ext_in. intros c Ic. symmetry. exact (CC c Ic).
    - rewrite Forall_forall in *. intros c Ic. destruct (NOK c Ic) as (w & Ew & D). rewrite (CC c Ic), CI. unfold cardof. rewrite Ew.
      assert (ONE : ty_of Gs c = Some (TRust "_") \/ (exists s, ty_of Gs c = Some (TRust s)) -> icard w = 1 -> icard w = icard t).
      { intros X W1. rewrite W1. destruct t as [| | | |[]]; try discriminate; try reflexivity. exfalso. cbn in FT. injection FT as <-.
        assert (XX : exists s, ty_of Gs c = Some (TRust s)) by (destruct X as [X|X]; [eauto|exact X]). destruct XX as (s & XX).
        refine (HR i _ c _ s _ Ic Eu XX). exact Qi. }
      assert (Lc : c < S N) by (pose proof (CH c Ic) as X0; cbv beta in X0; lia). destruct (AT c Lc) as (w' & u' & Ew' & Eu' & FW & _). assert (w' = w) by congruence. subst w'.
      destruct D as [D|[->|[(s & ->)|(rl & wr & Irl & RN & SP & CA & Er & D)]]]; [exact D| | |].
      1: apply ONE; [cbn in FW; injection FW as <-; left; exact Eu'|reflexivity].
      1: apply ONE; [cbn in FW; injection FW as <-; right; eexists; exact Eu'|reflexivity].
      assert (Lc' : c < N) by (pose proof (CH c Ic) as X0; cbv beta in X0; lia).
      rewrite (ow_child ig_owned Qi Ic), OI in RN, CA. change (In rl (rules G)) in Irl. assert (rl = rl0) by (pose proof (find_self ig_forest Irl) as X1; pose proof (find_self ig_forest Irl0) as X2; rewrite RN in X1; congruence). subst rl0.
      pose proof (root_low Irl) as Lr. apply (spos_ig Lr) in SP. apply (calls_ig Lc') in CA.
      destruct SF0 as [_ AL]; [destruct CA as (j & SJ & Ej); destruct (HL rl j (rname rl) Irl BF0 (spos_trans SP SJ) Ej) as [[X _]|[_ X]]; [lia|exact X]|].
      pose proof (AL i l c Q Ic SP CA) as CD. change (card Ga i = card Ga (rexpr rl)) in CD. rewrite CI, CARD in CD by lia. unfold cardof in CD. rewrite Er in CD.
      destruct D as [D|D]; [destruct NR0; exists wr; auto|congruence].
    - rewrite CI, (CC c (or_introl eq_refl)). destruct (dn_asc (DN i L) Qi NU) as (w & Ew & (s & ->)). unfold cardof. rewrite Ew. cbn [icard].
      destruct (di_shape D3) as (_ & CONST & _). assert (Li : i < length (exprs IG) - 1) by (rewrite ig_last; exact L).
      destruct (CONST i _ v t Li Qi eq_refl Et) as [X|[X|[[X _]|(_ & s' & -> & _)]]]; [subst t; discriminate|subst v|congruence|reflexivity].
      destruct (wb_asc WB Q) as [X|[X|(s' & X)]]; subst t; [discriminate|discriminate|reflexivity].
    - rewrite CI, NOK, (CC c (or_introl eq_refl)). reflexivity.
    - destruct NOK as [(w & Ew & Uw) N1]. rewrite CI, N1, (CC c (or_introl eq_refl)). unfold cardof. rewrite Ew. destruct w as [| | | |[]]; try discriminate; reflexivity. }
  assert (DOWN : forall i e, i < N -> nth_error (exprs G ++ [ESpan 0]) i = Some e -> Forall (fun j => j < i) (children e)).
  { intros i e L Ee. rewrite nth_error_app1 in Ee by exact L. exact (wb_children WB Ee). }
  assert (SL : length (exprs G ++ [ESpan 0]) = length (exprs G ++ [EAny])) by (rewrite !app_length; reflexivity).
  split; [exact ARENA|]. split; [exact COH|]. split.
  - intros m rl Irl. exact (@gen_agree (rules G) (exprs G ++ [ESpan 0]) (exprs G ++ [EAny]) out N OLD DOWN SL m rl (root_low Irl)).
  - intros m id. exact (@gen_prog_agree (rules G) (exprs G ++ [ESpan 0]) (exprs G ++ [EAny]) out N OLD DOWN SL root_low m id).
Qed.
Theorem typed_gen_ok fuel G' rk self bad : type_inference E fuel G = WOk (Some G') -> layered G rk self bad ->
  rec_ok G G' self bad ->
  (forall i l j ts s, expr_of G' i = Some (EAlt l) -> In j l -> ty_of G' i = Some (TTuple ts) -> ty_of G' j <> Some (TRust s)) ->
  gen_ok G'.
Proof.
  intros H HL HU HR. destruct (typed_coherent H HL HU HR) as (ARENA & COH & AG & _). intros rl m Irl.
  assert (RG : rules G' = rules G) by (destruct (infer_inv H) as (? & ? & ? & ? & _ & _ & _ & _ & _ & _ & _ & ->); reflexivity). rewrite RG in Irl.
  rewrite (AG m rl Irl). apply (gen_total ARENA COH). cbn [plug rules]. rewrite RG. exact Irl.
Qed.
End Top.
