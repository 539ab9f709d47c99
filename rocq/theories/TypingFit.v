(** The inferred types fit the expressions of the rules without recursive types. *)
From Verif Require Import Base Grammar WellFormed Analysis AnalysisFacts Typing TypeRules SurfaceFacts RefFacts DepthFacts TypingSound.
Set Implicit Arguments. Unset Strict Implicit.
Open Scope string_scope. Open Scope nat_scope. Open Scope list_scope.

(** But for the rules of [bad], the type of a rule depends on the types of rules of lower rank that are
    not in [bad], and maybe on itself. *)
Definition layered (G : grammar) (rk : string -> nat) (self : string -> Prop) (bad : string -> bool) : Prop :=
  forall rl i id, In rl (rules G) -> bad (rname rl) = false -> spos G (rexpr rl) i -> expr_of G i = Some (ENT id) ->
    (rk id < rk (rname rl) /\ bad id = false) \/ (id = rname rl /\ self id).

(** A sequence of the rule [id] calls it through at most one of its operands. *)
Definition linear (G : grammar) (id : string) : Prop := forall rl i l, In rl (rules G) -> rname rl = id -> spos G (rexpr rl) i -> expr_of G i = Some (ESeq l) ->
  forall p q c d, nth_error l p = Some c -> nth_error l q = Some d -> calls G id c -> calls G id d -> p = q.

Section Fit.
Variable G : grammar.
Variable E : tenv.
Hypothesis HG : typable G.
Variable own : nat -> string.
Hypothesis HO : owned G own.
Hypothesis HF : forest G.
Local Notation last := (length (exprs G) - 1).
Variable rk : string -> nat.
Variable self : string -> Prop.
Variable bad : string -> bool.
Hypothesis HL : layered G rk self bad.
Definition fits (r : string) : Prop := bad r = false /\ (self r -> linear G r).

(** An expression of the recursive rule, that calls it. *)
Definition in_rec (y : nat) : Prop := exists rl, In rl (rules G) /\ rname rl = own y /\ spos G (rexpr rl) y /\ calls G (own y) y.
Definition own_rec (y : nat) (t : ity) : Prop := bad (own y) = false -> forall r, t = IRec r -> self (own y) /\ Forall (fun p => snd p = [own y]) r /\ in_rec y.
(** What is below a recursive type without other values. *)
Definition rec_below (T : list ity) (y : nat) (e : expr) : Prop :=
  match e with
  | ESeq l => (exists c q, In c l /\ nth_error T c = Some (IRec q)) /\
              Forall (fun c => exists u, nth_error T c = Some u /\ (is_unit_kind u = true \/ exists q, u = IRec q /\ is_poly q = false)) l
  | EAlt l => Forall (fun c => exists q, nth_error T c = Some (IRec q) /\ is_poly q = false) l
  | ENT id => id = own y
  | _ => False
  end.
(** Nothing is recursive below the sequences and spans that have data. *)
Definition flat_below (T : list ity) (e : expr) : Prop :=
  match e with ESeq l => Forall (typed T) l | ESpan c => typed T c | _ => True end.
Lemma below_keep T T' y e : (forall c u, In c (children e) -> nth_error T c = Some u -> u <> IInfer -> nth_error T' c = Some u) ->
  (rec_below T y e -> rec_below T' y e) /\ (flat_below T e -> flat_below T' e).
Proof.
  intros K. split; destruct e; cbn [rec_below flat_below children] in *; auto.
  - intros ((c & q & Ic & Ec) & F). split; [exists c, q; split; [exact Ic|]; apply K; [exact Ic|exact Ec|discriminate]|]. rewrite Forall_forall in *. intros d Id. destruct (F d Id) as (u & Eu & D).
    exists u. split; [|exact D]. apply K; [exact Id|exact Eu|]. intros ->. destruct D as [D|(q' & D & _)]; discriminate.
  - intros F. rewrite Forall_forall in *. intros d Id. destruct (F d Id) as (q & Eq & D). exists q. split; [|exact D]. apply K; [exact Id|exact Eq|discriminate].
  - intros F. rewrite Forall_forall in *. intros d Id. destruct (F d Id) as (u & Eu & N & R). exists u. split; [|auto]. apply K; assumption.
  - intros (u & Eu & N & R). exists u. split; [|auto]. apply K; [left; reflexivity|assumption|assumption].
Qed.
Record Lay (path : list string) (T : list ity) : Prop := {
  la_fit : FitInv G E own fits T;
  la_rec : forall y t, nth_error T y = Some t -> own_rec y t;
  la_root : forall rl r, In rl (rules G) -> bad (rname rl) = false -> nth_error T (rexpr rl) = Some (IRec r) -> In (rname rl) path;
  la_const : ConstInv G E T;
  la_kids : KidsInv G T;
  la_down : forall y e r, y < last -> expr_of G y = Some e -> nth_error T y = Some (IRec r) -> bad (own y) = false -> is_poly r = false -> rec_below T y e;
  la_flat : forall y e t, y < last -> expr_of G y = Some e -> nth_error T y = Some t -> bad (own y) = false -> settledb t = true -> is_unit_kind t = false -> flat_below T e
}.
Definition At (path : list string) (i : nat) : Prop :=
  match path with
  | [] => False
  | a :: rest => own i = a /\ (exists rl, In rl (rules G) /\ rname rl = a /\ spos G (rexpr rl) i) 
      /\ (if bad a then Forall (fun b => bad b = true) rest else Forall (fun b => bad b = true \/ rk a < rk b) rest)
  end.

Lemma local_mono (R R' : nat -> ity -> Prop) path T e t : (forall c u, In c (children e) -> R c u -> R' c u) -> local G E R path T e t -> local G E R' path T e t.
Proof.
  intros M. destruct e; cbn [local]; auto. intros [F [->|(fuel & ts & F2 & FR & FT & H)]]; split; auto. right. exists fuel, ts. split; [exact F2|]. split; [|auto].
  clear - M FR. cbn [children] in M. induction FR as [|c v l ts H FR IH]; constructor; [apply M; [left; reflexivity|exact H]|]. apply IH. intros c' u Ic. apply M. right. exact Ic.
Qed.

(** The recursive part of the types computed by the rewriting rules. *)
Lemma to_poly_poly r : r <> [] -> is_poly (to_poly r) = true.
Proof. destruct r as [|p r]; [congruence|]. intros _. reflexivity. Qed.
Lemma set_rec path i e T t : Inv G path T -> At path i -> expr_of G i = Some e -> tyok G path T t -> local G E own_rec path T e t -> Lay path T -> i < last ->
  own_rec i t /\ (bad (own i) = false -> forall r, t = IRec r -> is_poly r = false -> rec_below T i e).
Proof.
  intros HI HA Ee TY LO [_ LR LROOT _ _ _ _] Li.
  assert (SPI : exists rl, In rl (rules G) /\ rname rl = own i /\ spos G (rexpr rl) i).
  { destruct path as [|a rest]; [destruct HA|]. destruct HA as (OA & (rl & Irl & RN & SPO) & _). exists rl. split; [exact Irl|]. split; [congruence|exact SPO]. }
  assert (GOAL : bad (own i) = false -> forall r, t = IRec r -> (self (own i) /\ Forall (fun p => snd p = [own i]) r /\ in_rec i) /\ (is_poly r = false -> rec_below T i e)).
  2: { split; [intros GI r Q; exact (proj1 (GOAL GI r Q))|intros GI r Q; exact (proj2 (GOAL GI r Q))]. }
  intros GI r ->.
  assert (UP : forall c, In c (visits e) -> in_rec c -> in_rec i).
  { intros c Ic (_ & _ & _ & _ & CA). destruct SPI as (rl & I1 & I2 & I3). exists rl. repeat (split; [assumption|]).
    rewrite (ow_child HO Ee (visits_children Ic)) in CA. exact (calls_up Ee Ic CA). }
  assert (CH : forall c q, In c (visits e) -> own_rec c (IRec q) -> self (own i) /\ Forall (fun p => snd p = [own i]) q /\ in_rec i).
  { intros c q Ic H. pose proof (ow_child HO Ee (visits_children Ic)) as OC. destruct (H ltac:(rewrite OC; exact GI) q eq_refl) as (A & B & C). rewrite OC in A, B.
    split; [exact A|]. split; [exact B|exact (UP c Ic C)]. }
  assert (UN : forall c t0, visits e = [c] -> is_rec_ty t0 = false -> reduce_unary T c t0 = WOk (IRec r) ->
    (self (own i) /\ Forall (fun p => snd p = [own i]) r /\ in_rec i) /\ (is_poly r = false -> rec_below T i e)).
  { intros c t0 EV N0 H. assert (Ic : In c (visits e)) by (rewrite EV; left; reflexivity).
    unfold reduce_unary in H. apply wbind_ok in H. destruct H as (u & Eu & H). apply tget_ok in Eu. apply WOk_inj' in H.
    destruct u as [|q| | |u]; try (subst t0; discriminate); try discriminate. injection H as <-. destruct (CH c q Ic (LR c _ Eu)) as (S1 & F & IR).
    split; [|intros P; rewrite to_poly_poly in P; [discriminate|exact (proj1 (iv_ty HI Eu ltac:(discriminate)))]].
    split; [exact S1|]. split; [|exact IR]. unfold to_poly. apply Forall_map. eapply Forall_impl; [|exact F]. intros p Q. exact Q. }
  assert (TU : forall l, l <> [] -> Forall (known_ty T) l -> (forall c, In c l -> c = last \/ In c (visits e)) -> reduce_tuple T l = WOk (IRec r) ->
    (self (own i) /\ Forall (fun p => snd p = [own i]) r /\ in_rec i) /\ (is_poly r = false -> rec_below T i (ESeq l))).
  { intros l NE F SUB H. pose proof (Inv_flat HI) as FL.
    assert (D : Forall (typed T) l \/ exists k q, In k l /\ nth_error T k = Some (IRec q)).
    { clear NE H SUB. induction F as [|k l (u & Eu & Nu) F IH]; [left; constructor|]. destruct IH as [IH|(q & s & I1 & I2)]; [|right; exists q, s; cbn; auto].
      destruct (is_rec_ty u) eqn:R; [right; destruct u; try discriminate; exists k, r0; cbn; auto|left; constructor; [exists u; auto|exact IH]]. }
    destruct D as [D|(k & q & I1 & I2)].
    - exfalso. rewrite (reduce_tuple_spec FL NE D) in H. destruct (flat_map (contrib T) l) as [|j [|j2 js]] eqn:EF; [destruct (forallb _ l); discriminate| |discriminate].
      apply tget_ok in H. assert (Ij : In j (flat_map (contrib T) l)) by (rewrite EF; left; reflexivity).
      apply in_flat_map in Ij. destruct Ij as (c & Ic & Ij). rewrite Forall_forall in D. pose proof (contrib_value FL (D c Ic)) as FV. rewrite Forall_forall in FV.
      destruct (FV j Ij) as (u & Eu & Vu). assert (u = IRec r) by congruence. subst u. discriminate.
    - pose proof (iv_ty HI I2 ltac:(discriminate)) as TQ.
      destruct (@reduce_tuple_rec T FL l _ F H ltac:(exists k, q; split; [exact I1|]; split; [exact I2|exact (proj1 TQ)])) as (r' & ER & NR & Q & POLY & KIND). injection ER as <-.
      assert (CHILD : forall c u, In c l -> nth_error T c = Some (IRec u) -> self (own i) /\ Forall (fun p => snd p = [own i]) u /\ in_rec i).
      { intros c u Ic Eu. destruct (SUB c Ic) as [->|Ic']; [|exact (CH c _ Ic' (LR c _ Eu))].
        destruct (iv_span HI) as (s & ES). rewrite (iv_len HI) in ES. congruence. }
      destruct (CHILD k q I1 I2) as (SE & _ & IR). split; [split; [exact SE|split; [|exact IR]]|].
      + apply Forall_forall. intros p Ip. assert (X : In (snd p) (map snd r)) by (apply in_map, Ip). apply Q in X.
        destruct X as (c & u & Ic & Eu & Iu). apply in_map_iff in Iu. destruct Iu as (p' & <- & Ip'). destruct (CHILD c u Ic Eu) as (_ & FU & _). rewrite Forall_forall in FU. exact (FU p' Ip').
      + intros P. split; [exists k, q; auto|]. rewrite Forall_forall in *. intros c Ic. destruct (F c Ic) as (u & Eu & Nu). exists u. split; [exact Eu|].
        destruct (is_rec_ty u) eqn:RU; [destruct u; try discriminate; right; eexists; split; [reflexivity|exact (KIND P c _ Ic Eu)]|].
        left. destruct (is_unit_kind u) eqn:UU; [reflexivity|]. exfalso. destruct r as [|[kk pp] r]; [congruence|].
        assert (X : kk = RPoly).
        { apply (POLY) with (p := pp); [|left; reflexivity]. exists c. split; [exact Ic|]. split; [|intros q' Q'; assert (u = IRec q') by congruence; subst u; discriminate].
          unfold contrib. rewrite Eu. destruct u as [| | | |[| |?|?|js|?]]; try discriminate; try congruence. destruct (FL _ _ Eu) as [L2 _]. intros ->. cbn in L2. lia. }
        subst kk. discriminate. }
  destruct e as [lit| |cls|id|p|l|l|c|c|c|c|c|c b f|c u|c|c]; cbn [local] in LO; try discriminate.
  - destruct path as [|a rest]; [destruct HA|]. destruct HA as (OA & (rl & Irl & RN & SPO) & RK). subst a.
    assert (IP : In id (own i :: rest) -> id = own i /\ self id).
    { intros Iid. destruct (HL Irl ltac:(congruence) SPO Ee) as [[LT BI]|[Q1 Q2]]; [|split; congruence]. rewrite RN in LT. destruct Iid as [Iid|Iid]; [rewrite Iid in LT; lia|].
      rewrite GI in RK. rewrite Forall_forall in RK. destruct (RK id Iid) as [X|X]; [congruence|lia]. }
    assert (BI : bad id = false) by (destruct (HL Irl ltac:(congruence) SPO Ee) as [[_ X]|[Q1 _]]; [exact X|congruence]).
    assert (IR : id = own i -> in_rec i) by (intros Q; destruct SPI as (rl0 & J1 & J2 & J3); exists rl0; repeat (split; [assumption|]); exists i; split; [constructor|congruence]).
    destruct LO as (rl' & F & [[Iid Er]|Er]).
    + destruct (IP Iid) as [-> S1]. split; [|reflexivity]. split; [exact S1|]. split; [|auto]. unfold rec_type in Er. cbn [take_while] in Er. rewrite String.eqb_refl in Er. cbn [negb] in Er. injection Er as ->. constructor; [reflexivity|constructor].
    + destruct (find_rule_name F) as [RN' RI']. pose proof (LROOT rl' r RI' ltac:(congruence) Er) as Iid. rewrite RN' in Iid. destruct (IP Iid) as [-> S1].
      destruct (LR _ _ Er ltac:(rewrite (ow_root HO RI'); congruence) r eq_refl) as (_ & FR & _). rewrite (ow_root HO RI'), RN' in FR. split; [auto|reflexivity].
  - destruct LO as [F H]. refine (TU l _ F _ H); [intros ->; exact (tg_seq HG Ee)|auto].
  - destruct LO as [F [Q|(fuel & ts & F2 & FR & FT & H)]]; [discriminate|]. apply reduce_sum_spec in H. destruct H as [NP CT].
    inversion CT as [? ? EQ|? ? ? ? EQ|? ? ?|r' EQ P]; subst.
    + exfalso. assert (X : In (IRec r) (non_rec ts)) by (rewrite EQ; left; reflexivity). apply filter_In in X. destruct X as [_ X]. discriminate.
    + exfalso. assert (X : In (IRec r) (non_rec ts)) by (rewrite EQ; apply in_or_app; right; left; reflexivity). apply filter_In in X. destruct X as [_ X]. discriminate.
    + assert (ALL : forall q, In (IRec q) ts -> self (own i) /\ Forall (fun p => snd p = [own i]) q /\ in_rec i).
      { intros q Iu. assert (X : exists c, In c l /\ own_rec c (IRec q)).
        { clear - FR Iu. induction FR as [|c v l ts H FR IH]; [destruct Iu|]. destruct Iu as [->|Iu]; [exists c; cbn; auto|]. destruct (IH Iu) as (c' & A & B). exists c'. cbn. auto. }
        destruct X as (c & Ic & Hc). exact (CH c q Ic Hc). }
      assert (PE : forall p, In p r -> (self (own i) /\ in_rec i) /\ snd p = [own i]).
      { intros p Ip. apply P in Ip. apply in_flat_map in Ip. destruct Ip as (u & Iu & Ip). destruct u; try destruct Ip. destruct (ALL _ Iu) as (S1 & FU & IR).
        rewrite Forall_forall in FU. auto. }
      split.
      * assert (NE : exists p, In p r) by (destruct r as [|p r]; [destruct TY; congruence|exists p; left; reflexivity]). destruct NE as (p & Ip). destruct (PE p Ip) as ((A & B) & _).
        split; [exact A|]. split; [|exact B]. apply Forall_forall. intros p' Ip'. exact (proj2 (PE p' Ip')).
      * intros _. assert (NROOT : forall c, In c l -> ~ is_root G c).
        { intros c Ic RT. refine (@fo_root G HF c i RT _). split; [exact Li|]. exists (EAlt l). auto. }
        clear - F2 NP EQ NROOT. revert NP EQ NROOT. cbn [rec_below]. induction F2 as [|c v l ts H F2 IH]; intros NP EQ NROOT; [constructor|].
        unfold non_rec in EQ. cbn [filter] in EQ. destruct v as [|q| | |v]; try discriminate EQ. cbn [is_rec_ty negb] in EQ. constructor.
        -- exists q. split; [apply H; right; apply NROOT; left; reflexivity|]. destruct (is_poly q) eqn:PQ; [|reflexivity]. exfalso. apply is_poly_true in PQ. destruct PQ as (p & Ip).
           apply (NP p). unfold all_paths. cbn [flat_map]. apply in_or_app. left. exact Ip.
        -- apply IH; [|exact EQ|intros d Id; apply NROOT; right; exact Id]. intros p Ip. apply (NP p). unfold all_paths. cbn [flat_map]. apply in_or_app. right. exact Ip.
  - destruct LO as [_ H]. refine (UN c _ eq_refl _ H). reflexivity.
  - destruct LO as [_ H]. refine (UN c _ eq_refl _ H). reflexivity.
  - destruct LO as [_ H]. refine (UN c _ eq_refl _ H). reflexivity.
  - unfold action_type in LO. destruct f as [[|s [|]]|]; try discriminate. destruct (ret_of E s) as [[|]|]; discriminate.
  - subst u. destruct (tg_asc HG Ee) as [Q|[Q|(s & Q)]]; discriminate.
  - destruct LO as [K H]. rewrite (iv_len HI) in H. destruct (span_at HI) as (s & ES). refine ((fun X => conj (proj1 X) (fun P => _)) (TU [last; c] _ _ _ H)); [|discriminate| |].
    + pose proof (proj2 X P) as [_ FB]. inversion FB as [|? ? (u & Eu & DU) _]; subst. assert (u = IRegular (TRust s)) by congruence. subst u. exfalso. destruct DU as [DU|(q & DU & _)]; discriminate.
    + constructor; [|constructor; [exact K|constructor]]. eexists. split; [exact ES|discriminate].
    + intros k [<-|[<-|[]]]; [auto|right; left; reflexivity].
  - destruct LO as [_ Q]. discriminate.
Qed.
Lemma set_flat R path i e T t : Inv G path T -> expr_of G i = Some e -> local G E R path T e t -> settledb t = true -> is_unit_kind t = false -> flat_below T e.
Proof.
  intros HI Ee LO St Ut.
  assert (TU : forall l, Forall (known_ty T) l -> reduce_tuple T l = WOk t -> Forall (typed T) l).
  { intros l F H. rewrite Forall_forall. intros c Ic. pose proof F as F'. rewrite Forall_forall in F. destruct (F c Ic) as (u & Eu & Nu). exists u. split; [exact Eu|]. split; [exact Nu|].
    destruct u as [|q| | |u]; try reflexivity. exfalso.
    destruct (@reduce_tuple_rec T (Inv_flat HI) l t F' H ltac:(exists c, q; split; [exact Ic|]; split; [exact Eu|exact (proj1 (iv_ty HI Eu Nu))])) as (q' & -> & _). discriminate. }
  destruct e; try exact I; cbn [local flat_below] in *.
  - destruct LO as [F H]. exact (TU _ F H).
  - destruct LO as [K H]. rewrite (iv_len HI) in H. destruct (span_at HI) as (s & ES).
    assert (X : Forall (typed T) [last; i0]).
    { refine (TU _ _ H). constructor; [|constructor; [exact K|constructor]]. eexists. split; [exact ES|discriminate]. }
    inversion X as [|? ? _ X']; subst. inversion X'; subst. assumption.
Qed.

Lemma set_fit (R : nat -> ity -> Prop) path k e T u : Inv G path T -> expr_of G k = Some e -> nth_error T k = Some IInfer -> u <> IInfer ->
  (fits (own k) -> forall c w, In c (visits e) -> R c w -> is_rec_ty w = false \/ in_rec c) -> local G E R path T e u ->
  ConstInv G E T -> KidsInv G T -> FitInv G E own fits T -> FitInv G E own fits (update T k u).
Proof.
  intros I1 Ee Ek NI NR LO CI KI FI. assert (L : k < length T) by (apply nth_error_Some; congruence).
  assert (SH : step G T (update T k u)).
  { split; [apply length_update, L|]. intros j v Ev. rewrite nth_update by exact L. destruct (Nat.eqb_spec j k) as [->|D]; [|eauto].
    exists u. split; [reflexivity|]. right. left. split; [congruence|exact NI]. }
  pose proof (last_unset I1 Ek) as LK. intros y e' v Ly Ey. rewrite nth_update by exact L. destruct (Nat.eqb_spec y k) as [->|D]; intros Ev Sv Uv Gy.
  - injection Ev as <-. assert (e = e') by congruence. subst e'.
    refine (@step_nodeok G E HG own HF fits T (update T k u) k e u u (fun _ _ j _ _ => @set_held _ _ _ _ Ek eq_refl j) (fun j _ => @set_held _ _ _ _ Ek eq_refl j) (span_at I1) SH LK Ee (local_known LO) _ Uv (or_introl eq_refl) _).
    { rewrite nth_update, Nat.eqb_refl by exact L. reflexivity. }
    exact (fit_local HG HF I1 CI Ee LK Sv Uv (NR Gy) LO).
  - refine (@step_nodeok G E HG own HF fits T (update T k u) y e' v v (fun _ _ j _ _ => @set_held _ _ _ _ Ek eq_refl j) (fun j _ => @set_held _ _ _ _ Ek eq_refl j) (span_at I1) SH Ly Ey _ _ Uv (or_introl eq_refl) (FI y e' v Ly Ey Ev Sv Uv Gy)).
    + refine (KI y e' v Ly Ey Ev _ Uv). intros ->. discriminate.
    + rewrite nth_update by exact L. destruct (Nat.eqb_spec y k); [congruence|exact Ev].
Qed.

(** The types of the children and of settled rules are all that matters. *)
Lemma nodeok_other T T' y e t : y < last -> expr_of G y = Some e -> (forall c, kid G y c -> nth_error T' c = nth_error T c) ->
  nth_error T' last = nth_error T last ->
  (forall x u, nth_error T x = Some u -> settledb u = true -> nth_error T' x = Some u) -> nodeok G E own T e t -> nodeok G E own T' e t.
Proof.
  intros Ly Ee KS LS RS H. assert (KD : forall c, In c (children e) -> nth_error T' c = nth_error T c) by (intros c Ic; apply KS; split; [exact Ly|exists e; auto]).
  assert (TU : forall l, (forall c, In c l -> nth_error T' c = nth_error T c) -> tuple_of T l t -> tuple_of T' l t).
  { intros l SL. assert (FM : flat_map (contrib T') l = flat_map (contrib T) l).
    { clear - SL. induction l as [|c l IH]; [reflexivity|]. cbn [flat_map]. rewrite IH by (intros d Id; apply SL; right; exact Id). unfold contrib. rewrite (SL c (or_introl eq_refl)). reflexivity. }
    unfold tuple_of. rewrite FM. destruct (flat_map (contrib T) l) as [|j [|k js]]; auto. intros (Ij & u & Eu & R). split; [exact Ij|]. exists u. rewrite (SL j Ij). auto. }
  destruct e as [lit| |cls|id|p|l|l|c|c|c|c|c|c b f|c u|c|c]; cbn [nodeok children] in *; try exact H.
  - destruct H as (rl & u & F & Eu & Q1 & Q2 & Q3). exists rl, u. split; [exact F|]. split; [|auto]. apply RS; auto.
  - exact (TU l KD H).
  - destruct H as [H (c & u & Ic & Eu & Su)]. split.
    + rewrite Forall_forall in *. intros d Id. rewrite KD by exact Id. destruct (H d Id) as (w & Ew & O). exists w. split; [exact Ew|]. destruct O as [O|[O|[O|O]]]; auto.
      2: { do 3 right. destruct O as (rl & I1 & I2 & I3 & I4 & O). exists rl. repeat (split; [assumption|]). destruct O as [O|(x & Ex & Sx & O)]; [auto|]. right. exists x. split; [exact (RS _ _ Ex Sx)|auto]. }
      right. left.
      assert (HE : forall j, held T T' j) by (intros j v Ev Sv; exists v; split; [exact (RS j v Ev Sv)|auto]).
      refine (proj1 (@eqv_keeps T T' (fun _ _ j _ _ => HE j)) w t O (fun j _ => HE j)).
    + exists c, u. rewrite (KD c Ic). auto.
  - refine (TU _ _ H). intros d [<-|Id]; [exact LS|exact (KD d Id)].
  - destruct H as [(u & Eu & Uu) C]. split; [|exact C]. exists u. rewrite KD by (left; reflexivity). auto.
Qed.

Lemma first_non_rec_self T x r id : nth_error T x = Some (IRec r) -> (forall rl, find_rule G id = Some rl -> rexpr rl = x) ->
  forall ids u, Forall (eq id) ids -> first_non_rec G T ids = WOk u -> u = IInvisible.
Proof.
  intros Ex HX. induction ids as [|a ids IH]; intros u F H; cbn [first_non_rec] in H; [congruence|]. inversion F; subst.
  destruct (find_rule G a) as [rl|] eqn:FR; [|discriminate]. rewrite (HX rl eq_refl) in H. unfold tget in H. rewrite Ex in H. cbn [wbind] in H. exact (IH u ltac:(assumption) H).
Qed.

Lemma lay_rec path T c t : Lay path T -> At path c -> nth_error T c = Some t -> t <> IInfer -> own_rec c t.
Proof.
  revert path T c t.
  intros path T c t LA _ Ec _. exact (la_rec LA Ec).
Qed.
Lemma at_child path i e j : expr_of G i = Some e -> In j (visits e) -> At path i -> At path j.
Proof.
  revert path i e j.
  intros [|a rest] i e j Ee Ij HA; [destruct HA|]. destruct HA as (OA & (rl & Irl & RN & SPO) & RK). split; [rewrite <- OA; exact (ow_child HO Ee (visits_children Ij))|].
  split; [|exact RK]. exists rl. split; [exact Irl|]. split; [exact RN|]. exact (spos_more SPO Ee Ij).
Qed.
Lemma at_call path T i id rl : expr_of G i = Some (ENT id) -> find_rule G id = Some rl -> ~ In id path -> here G own path T i ->
  nth_error T (rexpr rl) = Some IInfer -> At path i -> At (id :: path) (rexpr rl).
Proof.
  revert path T i id rl.
  intros [|a rest] T i id rl Ee F NP HH Er HA; [destruct HA|]. destruct HA as (OA & (rl' & Irl & RN & SPO) & RK). destruct (find_rule_name F) as [RN' RI'].
  split; [rewrite (ow_root HO RI'); exact RN'|]. split; [exists rl; split; [exact RI'|]; split; [exact RN'|constructor]|].
  destruct (bad a) eqn:BA.
  { destruct (bad id); (constructor; [auto|]); [exact RK|]. eapply Forall_impl; [|exact RK]. intros b Hb. left. exact Hb. }
  destruct (HL Irl ltac:(congruence) SPO Ee) as [[LT BI]|[Q _]]; [|exfalso; apply NP; left; congruence]. rewrite RN in LT. rewrite BI. constructor; [right; exact LT|].
  eapply Forall_impl; [|exact RK]. intros b [Hb|Hb]; [left; exact Hb|right; lia].
Qed.
Lemma lay_set path i e T t : Inv G path T -> here G own path T i -> At path i -> expr_of G i = Some e -> nth_error T i = Some IInfer ->
  tyok G path T t -> local G E own_rec path T e t -> Lay path T -> Lay path (update T i t).
Proof.
  revert path i e T t.
  intros path i e T t I1 HH HA Ee Ei TY LO LA. assert (L : i < length T) by (apply nth_error_Some; congruence).
  assert (NI : t <> IInfer) by (intros ->; exact TY). pose proof (last_unset I1 Ei) as Li. destruct (set_rec I1 HA Ee TY LO LA Li) as [ST DN]. destruct LA as [LF LR LROOT LC LK LD LFL].
  assert (KP : forall c u, nth_error T c = Some u -> u <> IInfer -> nth_error (update T i t) c = Some u).
  { intros c u Ec Nu. rewrite nth_update by exact L. destruct (Nat.eqb_spec c i) as [->|D]; [congruence|exact Ec]. }
  split.
  + refine (set_fit I1 Ee Ei NI _ LO LC LK LF). intros FI c w Ic Rw. destruct w; auto. right.
    destruct (Rw ltac:(rewrite (ow_child HO Ee (visits_children Ic)); exact (proj1 FI)) r eq_refl) as (_ & _ & X). exact X.
  + intros y v. rewrite nth_update by exact L. destruct (Nat.eqb_spec y i) as [->|D]; intros Ev; [injection Ev as <-; exact ST|exact (LR y v Ev)].
  + intros rl r Irl Bl. rewrite nth_update by exact L. destruct (Nat.eqb_spec (rexpr rl) i) as [Q|D]; intros Ev; [|exact (LROOT rl r Irl Bl Ev)].
    destruct path as [|a rest]; [destruct HA|]. destruct HA as (OA & _). left. rewrite <- (ow_root HO Irl), Q. congruence.
  + exact (set_const Ei Ee LO LC).
  + exact (set_kids Ei NI Ee LO LK).
  + intros y e' r Ly Ey. rewrite nth_update by exact L. destruct (Nat.eqb_spec y i) as [->|D]; intros Ev By Py; apply (proj1 (@below_keep T (update T i t) _ e' (fun c u _ => KP c u))).
    * injection Ev as ->. assert (e' = e) by congruence. subst e'. exact (DN By r eq_refl Py).
    * exact (LD y e' r Ly Ey Ev By Py).
  + intros y e' v Ly Ey. rewrite nth_update by exact L. destruct (Nat.eqb_spec y i) as [->|D]; intros Ev By Sv Uv; apply (proj2 (@below_keep T (update T i t) i e' (fun c u _ => KP c u))).
    * injection Ev as <-. assert (e' = e) by congruence. subst e'. exact (set_flat I1 Ee LO Sv Uv).
    * exact (LFL y e' v Ly Ey Ev By Sv Uv).
Qed.
Lemma lay_enter path id rl T : Inv G path T -> find_rule G id = Some rl -> ~ In id path -> nth_error T (rexpr rl) = Some IInfer ->
  At (id :: path) (rexpr rl) -> Lay path T -> Lay (id :: path) T.
Proof.
  revert path id rl T.
  intros path id rl T I1 F NP Er _ [LF LR LROOT LC LK LD LFL]. split; auto. intros rl' r Irl Bl Ev. right. exact (LROOT rl' r Irl Bl Ev).
Qed.
Lemma lay_leave path id rl T t1 t2 : Inv G path T -> find_rule G id = Some rl -> ~ In id path -> nth_error T (rexpr rl) = Some t1 -> t1 <> IInfer ->
  At (id :: path) (rexpr rl) -> reduce_rec_entry_point G T id t1 = WOk t2 -> tyok G path T t2 -> Lay (id :: path) T -> Lay path (update T (rexpr rl) t2).
Proof.
  revert path id rl T t1 t2.
  intros path id rl T t1 t2 I1 F NP E1 N1 HA E2 TY [LF LR LROOT LC LK LD LFL]. destruct (find_rule_name F) as [RN RI].
  assert (L : rexpr rl < length T) by (apply nth_error_Some; congruence).
  assert (OTHER : forall rl', In rl' (rules G) -> rname rl' = id -> rl' = rl).
  { intros rl' I' Q. pose proof (find_self HF I') as Q'. rewrite Q in Q'. congruence. }
  destruct (is_rec_ty t1) eqn:R1.
  2: { assert (t2 = t1) by (destruct t1; try discriminate; cbn in E2; congruence). subst t2. rewrite (update_same E1). split; auto.
       intros rl' r Irl Bl Ev. destruct (LROOT rl' r Irl Bl Ev) as [Q|Q]; [|exact Q]. rewrite (OTHER rl' Irl (eq_sym Q)) in Ev. rewrite E1 in Ev. injection Ev as ->. discriminate. }
  destruct t1 as [|r| | |t1]; try discriminate.
  assert (AT' : forall j, nth_error (update T (rexpr rl) t2) j = if j =? rexpr rl then Some t2 else nth_error T j) by (intros j; apply nth_update, L).
  assert (RT : root G (rexpr rl)) by (exists rl; auto). assert (OR : own (rexpr rl) = id) by (rewrite (ow_root HO RI); exact RN).
  assert (KD : forall y e c u, y < last -> expr_of G y = Some e -> In c (children e) -> nth_error T c = Some u -> u <> IInfer -> nth_error (update T (rexpr rl) t2) c = Some u).
  { intros y e c u Ly Ey Ic Ec _. rewrite AT'. destruct (Nat.eqb_spec c (rexpr rl)) as [->|D]; [|exact Ec]. exfalso. refine (fo_root HF RT (p := y) _). split; [exact Ly|]. exists e. auto. }
  assert (DOWN : (t2 = IInvisible \/ bad id = true) ->
    (forall y e r, y < last -> expr_of G y = Some e -> nth_error (update T (rexpr rl) t2) y = Some (IRec r) -> bad (own y) = false -> is_poly r = false -> rec_below (update T (rexpr rl) t2) y e) /\
    (forall y e t, y < last -> expr_of G y = Some e -> nth_error (update T (rexpr rl) t2) y = Some t -> bad (own y) = false -> settledb t = true -> is_unit_kind t = false -> flat_below (update T (rexpr rl) t2) e)).
  { intros W. split.
    - intros y e q Ly Ey. rewrite AT'. destruct (Nat.eqb_spec y (rexpr rl)) as [->|D]; intros Ev By Py; [exfalso; destruct W as [-> |W]; [discriminate|congruence]|].
      apply (proj1 (@below_keep T _ y e (fun c u => KD y e c u Ly Ey))). exact (LD y e q Ly Ey Ev By Py).
    - intros y e v Ly Ey. rewrite AT'. destruct (Nat.eqb_spec y (rexpr rl)) as [->|D]; intros Ev By Sv Uv; [exfalso; destruct W as [-> |W]; [injection Ev as <-; discriminate|congruence]|].
      apply (proj2 (@below_keep T _ y e (fun c u => KD y e c u Ly Ey))). exact (LFL y e v Ly Ey Ev By Sv Uv). }
  destruct (bad id) eqn:BI.
  { destruct (DOWN (or_intror eq_refl)) as [LD' LFL']. assert (N2 : t2 <> IInfer) by (intros ->; exact TY). split.
    + intros y e v Ly Ey. rewrite AT'. destruct (Nat.eqb_spec y (rexpr rl)) as [->|D]; intros Ev Sv Uv Gy; [destruct Gy as [Gy _]; congruence|].
      refine (nodeok_other Ly Ey _ _ _ (LF y e v Ly Ey Ev Sv Uv Gy)).
      * intros c K. rewrite AT'. destruct (Nat.eqb_spec c (rexpr rl)) as [->|D']; [destruct (fo_root HF RT K)|reflexivity].
      * rewrite AT'. destruct (Nat.eqb_spec last (rexpr rl)) as [Q|Q]; [exfalso; destruct (span_at I1) as (s & ES); congruence|reflexivity].
      * intros x u Eu Su. rewrite AT'. destruct (Nat.eqb_spec x (rexpr rl)) as [->|D']; [|exact Eu]. assert (u = IRec r) by congruence. subst u. discriminate.
    + intros y v. rewrite AT'. destruct (Nat.eqb_spec y (rexpr rl)) as [->|D]; intros Ev; [intros X; congruence|exact (LR y v Ev)].
    + intros rl' q Irl Bl. rewrite AT'. destruct (Nat.eqb_spec (rexpr rl') (rexpr rl)) as [Q|D]; intros Ev.
      * exfalso. rewrite <- OR, <- Q, (ow_root HO Irl) in BI. congruence.
      * destruct (LROOT rl' q Irl Bl Ev) as [Q|Q]; [congruence|exact Q].
    + intros k e u v Lk Ek C. rewrite AT'. destruct (Nat.eqb_spec k (rexpr rl)) as [->|D]; intros Ev; [|exact (const_set t2 E1 eq_refl (LC k e u v Lk Ek C Ev))].
      exfalso. destruct (const_not_rec HG Ek C) as [RU NU]. destruct (LC _ _ _ _ Lk Ek C E1) as [Q|[Q|[[Q _]|(_ & s & Q & _)]]]; try discriminate. subst u. discriminate.
    + intros k e v Lk Ek. rewrite AT'. intros Ev Nv U. eapply Forall_impl; [intros c; refine (@known_set T (rexpr rl) _ t2 E1 N2 c)|].
      destruct (Nat.eqb_spec k (rexpr rl)) as [->|D]; [exact (LK _ e _ Lk Ek E1 ltac:(discriminate) eq_refl)|exact (LK k e v Lk Ek Ev Nv U)].
    + exact LD'.
    + exact LFL'. }
  destruct (LR _ _ E1 ltac:(congruence) r eq_refl) as (SE & FR & _). rewrite (ow_root HO RI), RN in SE, FR.
  assert (t2 = IInvisible).
  { cbn [reduce_rec_entry_point] in E2. apply wbind_ok in E2. destruct E2 as (e & Een & E2).
    assert (e = id). { destruct r as [|[kk pp] r]; [discriminate|]. inversion FR as [|? ? Q _]; subst. cbn in Q. subst pp. cbn in Een. congruence. }
    subst e. rewrite String.eqb_refl in E2. cbn [reduce_rec] in E2. destruct (is_poly r); [congruence|].
    refine (@first_non_rec_self T (rexpr rl) r id E1 _ (flat_map snd r) t2 _ E2); [intros rl' F'; congruence|]. apply Forall_flat_map. eapply Forall_impl; [|exact FR]. intros p Q. cbv beta in Q. rewrite Q. constructor; auto. }
  subst t2. destruct (DOWN (or_introl eq_refl)) as [LD' LFL']. assert (AT : forall j, nth_error (update T (rexpr rl) IInvisible) j = if j =? rexpr rl then Some IInvisible else nth_error T j) by (intros j; apply nth_update, L).
  split.
  + intros y e v Ly Ey. rewrite AT. destruct (Nat.eqb_spec y (rexpr rl)) as [->|D]; intros Ev Sv Uv Gy; [injection Ev as <-; discriminate|].
    refine (nodeok_other Ly Ey _ _ _ (LF y e v Ly Ey Ev Sv Uv Gy)).
    * intros c K. rewrite AT. destruct (Nat.eqb_spec c (rexpr rl)) as [->|D']; [destruct (fo_root HF RT K)|reflexivity].
    * rewrite AT. destruct (Nat.eqb_spec last (rexpr rl)) as [Q|Q]; [exfalso; destruct (span_at I1) as (s & ES); congruence|reflexivity].
    * intros x u Eu Su. rewrite AT. destruct (Nat.eqb_spec x (rexpr rl)) as [->|D']; [|exact Eu]. assert (u = IRec r) by congruence. subst u. discriminate.
  + intros y v. rewrite AT. destruct (y =? rexpr rl); intros Ev; [injection Ev as <-; intros _ q Q; discriminate|exact (LR y v Ev)].
  + intros rl' q Irl Bl. rewrite AT. destruct (Nat.eqb_spec (rexpr rl') (rexpr rl)) as [Q|D]; intros Ev; [discriminate|]. destruct (LROOT rl' q Irl Bl Ev) as [Q|Q]; [|exact Q].
    rewrite (OTHER rl' Irl (eq_sym Q)) in D. congruence.
  + intros k e u v Lk Ek C. rewrite AT. destruct (Nat.eqb_spec k (rexpr rl)) as [->|D]; intros Ev; [|exact (const_set IInvisible E1 eq_refl (LC k e u v Lk Ek C Ev))].
    exfalso. destruct (const_not_rec HG Ek C) as [RU NU]. destruct (LC _ _ _ _ Lk Ek C E1) as [Q|[Q|[[Q _]|(_ & s & Q & _)]]]; try discriminate. subst u. discriminate.
  + intros k e v Lk Ek. rewrite AT. destruct (Nat.eqb_spec k (rexpr rl)) as [->|D]; intros Ev Nv U; [injection Ev as <-; discriminate|].
    eapply Forall_impl; [intros c; refine (@known_set T (rexpr rl) _ IInvisible E1 ltac:(discriminate) c)|]. exact (LK k e v Lk Ek Ev Nv U).
  + exact LD'.
  + exact LFL'.
Qed.
Lemma at_top rl : In rl (rules G) -> At [rname rl] (rexpr rl).
Proof.
  revert rl.
  intros rl Irl. split; [exact (ow_root HO Irl)|]. split; [exists rl; split; [exact Irl|split; [reflexivity|constructor]]|destruct (bad (rname rl)); constructor].
Qed.
Theorem surface_fit fuel : forall rs st st', incl rs (rules G) -> Inv G [] (tys st) -> surface_from G E fuel rs st = WOk st' -> Lay [] (tys st) -> Lay [] (tys st').
Proof. exact (@surface_pres G E HG own HO Lay At (fun _ => own_rec) lay_rec at_child at_call lay_set lay_enter lay_leave at_top fuel). Qed.

(** Once the recursive types are replaced, the types fit. *)
Lemma all_rec_fit st st' : Inv G [] (tys st) -> Shape G E (tys st) -> (forall rl, In rl (rules G) -> known_ty (tys st) (rexpr rl)) -> Lay [] (tys st) ->
  reduce_all_rec G st = WOk st' -> FitInv G E own fits (tys st').
Proof.
  intros HI HS KN [LF LR LROOT LC LK LD LFL] H. destruct (all_rec_ok HG HI HS H) as (I2 & S2 & N2 & X & _ & SAME).
  unfold reduce_all_rec in H. apply wbind_ok in H. destruct H as (T' & HT & H). apply WOk_inj' in H. subst st'. cbn [tys terr] in *. set (T := tys st) in *.
  destruct (reduce_recs_at HT) as [LEN AT].
  assert (KEEP : forall x u, nth_error T x = Some u -> settledb u = true -> nth_error T' x = Some u) by (intros x u Eu Su; apply (SAME x u Eu); destruct u; try reflexivity; discriminate).
  (* a recursive type becomes the type of the rule *)
  assert (REC : forall y r, nth_error T y = Some (IRec r) -> bad (own y) = false -> exists rl w, In rl (rules G) /\ rname rl = own y /\ spos G (rexpr rl) y /\ calls G (own y) y /\ self (own y) /\
    nth_error T (rexpr rl) = Some w /\ nth_error T' (rexpr rl) = Some w /\ settledb w = true /\ nth_error T' y = Some (if is_poly r then IInvisible else w)).
  { intros y r Ey By. destruct (LR y _ Ey By r eq_refl) as (SE & FR & (rl & I1 & I3 & I4 & I5)). destruct (KN rl I1) as (w & Ew & Nw).
    assert (Sw : settledb w = true). { destruct w as [|q| | |w]; try reflexivity; [congruence|]. destruct (LROOT rl q I1 ltac:(congruence) Ew). }
    exists rl, w. repeat (split; [assumption|]). split; [exact (KEEP _ _ Ew Sw)|]. split; [exact Sw|]. destruct (AT y _ Ey) as (t' & Et' & Q). rewrite Et'. f_equal. cbn [reduce_rec] in Q.
    destruct (is_poly r); [congruence|]. destruct r as [|p r]; [destruct (iv_ty HI Ey ltac:(discriminate)); congruence|]. inversion FR as [|? ? Q1 _]; subst. cbn [flat_map] in Q. rewrite Q1 in Q. cbn [app first_non_rec] in Q.
    rewrite <- I3, (find_self HF I1) in Q. unfold tget in Q. rewrite Ew in Q. cbn [wbind] in Q. destruct w; try discriminate; congruence. }
  intros y e t Ly Ey Et St Ut Gy. assert (Lt : y < length T) by (rewrite <- LEN; apply nth_error_Some; congruence).
  assert (KID : forall c, In c (children e) -> own c = own y) by (intros c Ic; exact (ow_child HO Ey Ic)).
  assert (HE : forall j, held T T' j) by (intros j v Ev Sv; exists v; split; [exact (KEEP j v Ev Sv)|auto]).
  destruct (nth_error T y) as [t1|] eqn:E1; [|apply nth_error_None in E1; lia]. destruct (is_rec_ty t1) eqn:R1.
  - destruct t1 as [|r| | |t1]; try discriminate. destruct (REC y r E1 (proj1 Gy)) as (rl & w & J1 & J2 & J3 & J4 & SE & J5 & J6 & J7 & J8). rewrite J8 in Et.
    destruct (is_poly r) eqn:Pr; [injection Et as <-; discriminate|]. injection Et as <-. pose proof (LD y e r Ly Ey E1 (proj1 Gy) Pr) as B. pose proof (proj2 Gy SE) as LIN.
    assert (RC : forall c q, In c (children e) -> nth_error T c = Some (IRec q) -> is_poly q = false -> nth_error T' c = Some w).
    { intros c q Ic Eq Pq. destruct (REC c q Eq ltac:(rewrite KID by exact Ic; exact (proj1 Gy))) as (rl' & w' & K1 & K2 & _ & _ & _ & K5 & _ & _ & K8). rewrite Pq in K8. rewrite K8. f_equal.
      assert (QN : rname rl' = rname rl) by (rewrite K2, KID by exact Ic; congruence). pose proof (find_self HF K1) as Q1. pose proof (find_self HF J1) as Q2. rewrite QN in Q1. congruence. }
    destruct e as [lit| |cls|id|p|l|l|c|c|c|c|c|c b f|c u|c|c]; cbn [rec_below nodeok children] in *; try contradiction.
    + subst id. exists rl, w. split; [rewrite <- J2; exact (find_self HF J1)|]. split; [exact J6|]. split; [left; reflexivity|auto].
    + destruct B as ((c & q & Ic & Ec) & F).
      assert (ONLY : exists l1 l2, l = l1 ++ c :: l2 /\ forall d, In d (l1 ++ l2) -> contrib T' d = []).
      { apply in_split in Ic. destruct Ic as (l1 & l2 & EL). exists l1, l2. split; [exact EL|]. intros d Id.
        assert (Idl : In d l) by (rewrite EL; apply in_app_iff in Id; apply in_or_app; cbn; tauto).
        rewrite Forall_forall in F. destruct (F d Idl) as (u & Eu & D). destruct D as [D|(q' & -> & _)].
        { unfold contrib. assert (Su : settledb u = true) by (destruct u; try reflexivity; discriminate). rewrite (KEEP d u Eu Su). destruct u as [| | | |[]]; try discriminate; reflexivity. }
        exfalso. destruct (REC c q Ec ltac:(rewrite KID by (rewrite EL; apply in_or_app; right; left; reflexivity); exact (proj1 Gy))) as (_ & _ & _ & _ & _ & CC & _).
        destruct (REC d q' Eu ltac:(rewrite KID by exact Idl; exact (proj1 Gy))) as (_ & _ & _ & _ & _ & CD & _).
        rewrite KID in CC by (rewrite EL; apply in_or_app; right; left; reflexivity). rewrite KID in CD by exact Idl.
        assert (POS : exists n, n <> length l1 /\ nth_error l n = Some d).
        { rewrite EL. apply in_app_iff in Id. destruct Id as [Id|Id]; apply In_nth_error in Id; destruct Id as (n & En).
          - assert (n < length l1) by (apply nth_error_Some; congruence). exists n. split; [lia|]. rewrite nth_error_app1 by assumption. exact En.
          - exists (length l1 + S n). split; [lia|]. rewrite nth_error_app2 by lia. replace (length l1 + S n - length l1) with (S n) by lia. exact En. }
        destruct POS as (n & NE & En). apply NE. refine (LIN rl y l J1 J2 J3 Ey n (length l1) d c En _ CD CC). rewrite EL, nth_error_app2, Nat.sub_diag by lia. reflexivity. }
      destruct ONLY as (l1 & l2 & EL & NIL). assert (Ec' : nth_error T' c = Some w).
      { refine (RC c q _ Ec _); [rewrite EL; apply in_or_app; right; left; reflexivity|]. rewrite Forall_forall in F. destruct (F c) as (u & Eu & D); [rewrite EL; apply in_or_app; right; left; reflexivity|].
        assert (u = IRec q) by congruence. subst u. destruct D as [D|(q' & Q & D)]; [discriminate|congruence]. }
      assert (FM : flat_map (contrib T') l = contrib T' c).
      { assert (Z : forall l0, (forall d, In d l0 -> contrib T' d = []) -> flat_map (contrib T') l0 = []).
        { induction l0 as [|d l0 IH]; intros K; [reflexivity|]. cbn [flat_map]. rewrite (K d (or_introl eq_refl)). apply IH. intros x Hx. apply K. right. exact Hx. }
        rewrite EL, flat_map_app. cbn [flat_map]. rewrite (Z l1), (Z l2), app_nil_r; [reflexivity| |]; intros d Id; apply NIL, in_or_app; auto. }
      unfold tuple_of. rewrite FM. assert (Icl : In c l) by (rewrite EL; apply in_or_app; right; left; reflexivity).
      unfold contrib. rewrite Ec'. pose proof (iv_ty I2 J6 ltac:(intros ->; discriminate)) as TW. destruct w as [| | | |[| |j|j|js|s]]; try discriminate;
        try (split; [exact Icl|]; eexists; split; [exact Ec'|]; split; [reflexivity|left; reflexivity]).
      destruct TW as [L2 _]. destruct js as [|a [|b js]]; cbn in L2; try lia. reflexivity.
    + assert (ALL : forall c, In c l -> nth_error T' c = Some w).
      { intros c Ic. rewrite Forall_forall in B. destruct (B c Ic) as (q & Eq & Pq). exact (RC c q Ic Eq Pq). }
      split; [apply Forall_forall; intros c Ic; exists w; split; [exact (ALL c Ic)|auto]|]. destruct l as [|c l]; [destruct (tg_alt HG Ey)|]. exists c, w. split; [left; reflexivity|].
      split; [apply ALL; left; reflexivity|left; reflexivity].
  - assert (t = t1) by (pose proof (SAME y t1 E1 R1); congruence). subst t1. pose proof (LF y e t Ly Ey E1 St Ut Gy) as NOK.
    assert (FB := LFL y e t Ly Ey E1 (proj1 Gy) St Ut).
    assert (TU : forall l, (forall c, In c l -> nth_error T' c = nth_error T c) -> tuple_of T l t -> tuple_of T' l t).
    { intros l SL. assert (FM : flat_map (contrib T') l = flat_map (contrib T) l).
      { clear - SL. induction l as [|c l IH]; [reflexivity|]. cbn [flat_map]. rewrite IH by (intros d Id; apply SL; right; exact Id). unfold contrib. rewrite (SL c (or_introl eq_refl)). reflexivity. }
      unfold tuple_of. rewrite FM. destruct (flat_map (contrib T) l) as [|j [|k js]]; auto. intros (Ij & u & Eu & R). split; [exact Ij|]. exists u. rewrite (SL j Ij). auto. }
    assert (TS : forall c, typed T c -> nth_error T' c = nth_error T c).
    { intros c Tc. apply typed_settled in Tc. destruct Tc as (u & Eu & Su). rewrite Eu. exact (KEEP c u Eu Su). }
    destruct e as [lit| |cls|id|p|l|l|c|c|c|c|c|c b f|c u|c|c]; cbn [nodeok children flat_below] in *; try exact NOK.
    + destruct NOK as (rl & u & F & Eu & Q1 & Q2 & Q3). exists rl, u. split; [exact F|]. split; [|auto]. apply KEEP; auto.
    + rewrite Forall_forall in FB. apply TU; [|exact NOK]. intros c Ic. exact (TS c (FB c Ic)).
    + destruct NOK as [NOK (c & u & Ic & Eu & Su)]. split.
      * rewrite Forall_forall in *. intros d Id. destruct (NOK d Id) as (w & Ew & O).
        assert (OUT : settledb w = true -> (w = t \/ eqv T w t \/ opaque w) -> exists u0, nth_error T' d = Some u0 /\ (u0 = t \/ eqv T' u0 t \/ opaque u0 \/ rec_branch G own T' d u0)).
        { intros Sw O'. exists w. split; [exact (KEEP d w Ew Sw)|]. destruct O' as [O'|[O'|O']]; auto. right. left.
          refine (proj1 (@eqv_keeps T T' (fun _ _ j _ _ => HE j)) w t O' (fun j _ => HE j)). }
        destruct O as [O|[O|[O|O]]].
        -- apply OUT; [subst w; exact St|auto].
        -- apply OUT; [exact (proj1 (eqv_settled O))|auto].
        -- apply OUT; [destruct O as [->|(s & ->)]; reflexivity|auto].
        -- destruct O as (rl & I1 & I3 & I4 & I5 & O). assert (Bd : bad (own d) = false) by (rewrite KID by exact Id; exact (proj1 Gy)).
           destruct (AT d w Ew) as (w' & Ew' & _). exists w'. split; [exact Ew'|]. do 3 right. exists rl. repeat (split; [assumption|]). right. destruct O as [(q & -> & Pq)|(x & Ex & Sx & O)].
           ++ destruct (REC d q Ew Bd) as (rl' & x & K1 & K2 & _ & _ & _ & K5 & K6 & K7 & K8). rewrite Pq in K8. assert (w' = x) by congruence. subst w'.
              assert (QN : rname rl' = rname rl) by congruence. pose proof (find_self HF K1) as Q1. pose proof (find_self HF I1) as Q2. rewrite QN in Q1. assert (rl' = rl) by congruence. subst rl'.
              exists x. split; [exact K6|]. split; [exact K7|]. right. left. reflexivity.
           ++ exists x. split; [exact (KEEP _ _ Ex Sx)|]. split; [exact Sx|]. destruct O as [O|O]; [auto|]. right.
              assert (Sw : settledb w = true) by (destruct O as [<-|[_ [->|(s & ->)]]]; [exact Sx|reflexivity|reflexivity]). rewrite (KEEP d w Ew Sw) in Ew'. injection Ew' as <-. exact O.
      * exists c, u. split; [exact Ic|]. split; [|exact Su]. apply KEEP; [exact Eu|]. destruct Su as [->|[[->|(s & ->)] _]]; [exact St|reflexivity|reflexivity].
    + apply TU; [|exact NOK]. intros d [<-|[<-|[]]]; [|exact (TS c FB)]. destruct (span_at HI) as (s & ES). rewrite ES. exact (SAME _ _ ES eq_refl).
    + destruct NOK as [(u & Eu & Uu) C]. split; [|exact C]. exists u. split; [|exact Uu]. apply KEEP; [exact Eu|]. destruct u; try reflexivity; discriminate.
Qed.

Theorem inference_fit fuel T0 st1 st2 st3 : blank G T0 -> surface G E fuel (mkT T0 false) = WOk st1 -> reduce_all_rec G st1 = WOk st2 ->
  depth G E fuel fuel st2 = WOk st3 -> terr st3 = false ->
  DInv G E own fits (tys st3) /\ forall y, y < last -> done G (tys st3) y.
Proof.
  intros B H1 H2 H3 NE. destruct (blank_inv E B) as [I0 S0]. unfold surface in H1.
  destruct (@surface_ok G E HG own HO fuel (rules G) (mkT T0 false) st1 (incl_refl _) I0 H1) as (I1 & X1 & _ & KN).
  pose proof (@surface_shape G E HG own HO fuel (rules G) (mkT T0 false) st1 (incl_refl _) I0 H1 S0) as S1.
  assert (KN' : forall rl, In rl (rules G) -> known_ty (tys st1) (rexpr rl)) by (intros rl Irl; exact (KN rl rl Irl (find_self HF Irl))).
  assert (L0 : Lay [] T0).
  { destruct S0 as (_ & C0 & K0). split; auto.
    - intros y e t Ly Ey Et St. destruct (blank_at B Et) as [->|(Q & _)]; [discriminate|lia].
    - intros y t Et _ r ->. destruct (blank_at B Et) as [Q|(_ & s & Q)]; discriminate.
    - intros rl r Irl _ Et. destruct (blank_at B Et) as [Q|(_ & s & Q)]; discriminate.
    - intros y e r Ly Ey Et. destruct (blank_at B Et) as [Q|(_ & s & Q)]; discriminate.
    - intros y e t Ly Ey Et _ St. destruct (blank_at B Et) as [->|(Q & _)]; [discriminate|lia]. }
  pose proof (@surface_fit fuel (rules G) (mkT T0 false) st1 (incl_refl _) I0 H1 L0) as L1.
  exact (@inference_end G E HG own HO HF fits fuel st1 st2 st3 I1 S1 KN' H2 (all_rec_fit I1 S1 KN' L1 H2) H3 NE).
Qed.
End Fit.
