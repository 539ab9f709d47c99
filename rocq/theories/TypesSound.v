(** A well-typed module (CodeTypes.v) never reaches a meaningless state (Target.v), and returns data of the declared type. *)
From Verif Require Import PropertiesSignature Base Utf8 Stream ParseState Grammar PegSpec Target TreeShapes CodeTypes TypesGen.
Set Implicit Arguments. Unset Strict Implicit.
Open Scope list_scope.

(** ---------------- the functions of other modules that code calls ---------------- *)
Fixpoint outs (c : code) : list (mode * list string) :=
  match c with
  | CState | CSuccess _ | CFailure | CTail _ | CCall _ _ _ _ => []
  | CLetMark _ c | CLetBool _ _ c | CLetCounter _ c | CLetNone _ c | CLetVec _ c | CLetAct _ _ _ _ _ c | CLetSpan _ _ _ c
  | CSetBool _ _ c | CSetSome _ _ c | CPush _ _ c | CError _ c | CRestore _ c | CRestoreFF _ c | CIfFailedRestore _ c => outs c
  | CMatchNext _ s f | CMatchClass _ _ s f | CPrefix _ s f | CAssign s f | CIfTrue _ s f | CTestRestore _ s f | CIfLess _ _ s f
  | CLoop s _ _ f => outs s ++ outs f
  | CCallRec p s f => match p with Foreign q => [(Rec, q)] | Local _ => [] end ++ outs s ++ outs f
  | CCallPar p _ s f => match p with Foreign q => [(Par, q)] | Local _ => [] end ++ outs s ++ outs f
  end.
Definition func_outs (f : func) : list (mode * list string) := flat_map (fun q => outs (kbody (snd q))) (fclosures f) ++ outs (fbody f).
(** The functions of [P], and of other modules those of [S] only. *)
Definition limited (P : decls) (S0 : mode -> list string -> Prop) : decls :=
  mkDecls (fun md c t => P md c t /\ match c with Local _ => True | Foreign p => S0 md p end) (d_act P).
Lemma typed_limited P (S0 : mode -> list string -> Prop) K V st c t : typed P K V st c t -> (forall md p, In (md, p) (outs c) -> S0 md p) -> typed (limited P S0) K V st c t.
Proof.
  assert (L : forall md p u (R : list (mode * list string)), P md p u -> (forall md' q, In (md', q) (match p with Foreign q => [(md, q)] | Local _ => [] end ++ R) -> S0 md' q) -> limited P S0 md p u).
  { intros md p u R H I0. split; [exact H|]. destruct p as [id|q]; [exact I|]. apply I0. left. reflexivity. }
  intros H. induction H; cbn [outs]; intros IN;
    try solve [econstructor; eauto; match goal with IH : (forall md p, In _ (outs ?c) -> _) -> typed _ _ _ _ ?c _ |- typed _ _ _ _ ?c _ => apply IH; intros; apply IN; rewrite ?in_app_iff; auto end].
Qed.
Lemma closures_limited P (S0 : mode -> list string -> Prop) K l K' : closures_typed P K l K' ->
  (forall md p, In (md, p) (flat_map (fun q => outs (kbody (snd q))) l) -> S0 md p) -> closures_typed (limited P S0) K l K'.
Proof.
  induction 1 as [K|K k clo l sg K' L1 L2 L3 T ND NI CT IH]; intros IN; [constructor|]. cbn [flat_map snd] in IN. econstructor; try eassumption.
  - apply (typed_limited T). intros md p I0. apply IN. apply in_or_app. left. exact I0.
  - apply IH. intros md p I0. apply IN. apply in_or_app. right. exact I0.
Qed.
Lemma func_limited P (S0 : mode -> list string -> Prop) f t : func_typed P f t -> (forall md p, In (md, p) (func_outs f) -> S0 md p) -> func_typed (limited P S0) f t.
Proof.
  intros (K & CT & T) IN. unfold func_outs in IN. exists K. split.
  - apply (closures_limited CT). intros md p I0. apply IN. apply in_or_app. left. exact I0.
  - apply (typed_limited T). intros md p I0. apply IN. apply in_or_app. right. exact I0.
Qed.

(** ---------------- specification ---------------- *)
Section Foreign.
(** The values of Rust types: those made by actions and by functions of other modules. *)
Variable F : value -> Prop.
Hypothesis MF : forall v, made_outside v -> F v.
(** The values of a type, when the names of Rust types are forgotten. *)
Inductive of_shape : value -> tsh -> Prop :=
| os_unit : of_shape VUnit SUnit
| os_char c : of_shape (VChar c) SChar
| os_none s : of_shape VNone (SOpt s)
| os_some v s : of_shape v s -> of_shape (VSome v) (SOpt s)
| os_vec l s : Forall (fun v => of_shape v s) l -> of_shape (VVec l) (SVec s)
| os_tuple l ss : Forall2 of_shape l ss -> of_shape (VTuple l) (STup ss)
| os_rust v : F v -> of_shape v SRust.
(** The calls of actions that are accepted, with their arguments. *)
Variable AL : action * list value -> Prop.
(** A state whose data, if any, is of type [t]. *)
Definition holds (t : tsh) (st : pst) : Prop := forall v, data st = Some v -> of_shape v t.
(** The functions of a module are typed as [P] says, and those of other modules return what [P] says and are meaningful. *)
Definition prog_typed (P : decls) (prog : mode -> string -> option func) : Prop :=
  forall m id t, P m (Local id) t -> exists f, prog m id = Some f /\ func_typed P f t.
Definition ext_typed (P : decls) (xf : mode -> list string -> pst -> outcome (pst * alog)) : Prop :=
  forall m p t st, P m (Foreign p) t -> holds SUnit st -> xf m p st <> Stuck /\ forall st' l, xf m p st = Done (st', l) -> holds t st' /\ Forall AL l.
(** Every call of an action with arguments of the declared types is accepted. *)
Definition act_typed (P : decls) : Prop := forall f us vs, d_act P f us -> Forall2 of_shape vs us -> AL (f, vs).

(** ---------------- slots ---------------- *)
Inductive slot_ok : lty -> slot -> Prop :=
| so_val t v : of_shape v t -> slot_ok (LVal t) (SVal v)
| so_stream s : slot_ok LStream (SStream s)
| so_bool b : slot_ok LBool (SBool b)
| so_nat n : slot_ok LNat (SNat n).
Definition fits (V : lenv) (e : env) : Prop := Forall2 (fun d s => fst d = fst s /\ slot_ok (fst (snd d)) (snd s)) V e.

Lemma fits_known V e x t b : fits V e -> known x V = Some (t, b) -> exists s, lookup x e = Some s /\ slot_ok t s.
Proof.
  induction 1 as [|[y [u c]] [z s] V e [Q O] FV IH]; [discriminate|]. cbn [fst snd known lookup] in *. subst z.
  destruct (name_eqb x y); [|exact IH]. intros K. injection K as -> ->. exists s. auto.
Qed.
Lemma fits_is V e x t : fits V e -> is_a V x t -> exists s, lookup x e = Some s /\ slot_ok t s.
Proof. intros FV (b & K). exact (fits_known FV K). Qed.
Lemma fits_val V e x t : fits V e -> is_a V x (LVal t) -> exists v, get_val e x = Done v /\ of_shape v t.
Proof. intros FV K. destruct (fits_is FV K) as (s & L & O). inversion O; subst. exists v. unfold get_val. rewrite L. auto. Qed.
Lemma fits_stream V e x : fits V e -> is_a V x LStream -> exists v, get_stream e x = Done v.
Proof. intros FV K. destruct (fits_is FV K) as (s & L & O). inversion O; subst. exists s0. unfold get_stream. rewrite L. reflexivity. Qed.
Lemma fits_bool V e x : fits V e -> is_a V x LBool -> exists v, get_bool e x = Done v.
Proof. intros FV K. destruct (fits_is FV K) as (s & L & O). inversion O; subst. exists b. unfold get_bool. rewrite L. reflexivity. Qed.
Lemma fits_nat V e x : fits V e -> is_a V x LNat -> exists v, get_nat e x = Done v.
Proof. intros FV K. destruct (fits_is FV K) as (s & L & O). inversion O; subst. exists n. unfold get_nat. rewrite L. reflexivity. Qed.
Lemma assign_is V x t : assignable V x t -> is_a V x t.
Proof. intros H. exists true. exact H. Qed.
Lemma fits_update V e x t s : fits V e -> is_a V x t -> slot_ok t s -> fits V (update x s e).
Proof.
  intros FV (b & K) O. induction FV as [|[y [u c]] [z w] V e [Q O'] FV IH]; [discriminate|]. cbn [fst snd known update] in *. subst z.
  destruct (name_eqb x y).
  - injection K as -> ->. constructor; [|exact FV]. cbn. auto.
  - constructor; [cbn; auto|]. exact (IH K).
Qed.
Lemma fits_declare V e x t s : fits V e -> slot_ok t s -> fits (declare x t V) ((x, s) :: e).
Proof. intros FV O. constructor; [cbn; auto|exact FV]. Qed.
Lemma fits_vals V e xs ts : fits V e -> Forall2 (fun x t => is_a V x (LVal t)) xs ts -> exists vs, get_vals e xs = Done vs /\ Forall2 of_shape vs ts.
Proof.
  intros FV H. induction H as [|x t xs ts Q _ (vs & E & S0)]; [exists []; split; [reflexivity|constructor]|].
  destruct (fits_val FV Q) as (v & E' & O). exists (v :: vs). cbn [get_vals]. rewrite E', E. split; [reflexivity|constructor; assumption].
Qed.
Lemma tup_shape vs ts : Forall2 of_shape vs ts -> of_shape (tup vs) (assemble ts).
Proof.
  intros H. destruct H as [|v t vs ts O H]; [constructor|]. destruct H as [|v' t' vs ts O' H]; [exact O|]. cbn [tup assemble]. constructor. repeat constructor; assumption.
Qed.
Lemma fits_gives V e xs t : fits V e -> gives V xs t -> exists vs, get_vals e xs = Done vs /\ of_shape (tup vs) t.
Proof. intros FV (ts & H & ->). destruct (fits_vals FV H) as (vs & E & O). exists vs. split; [exact E|]. exact (tup_shape O). Qed.
Lemma fits_slots V e xs ts : fits V e -> Forall2 (is_a V) xs ts -> exists vs, get_slots e xs = Done vs /\ Forall2 slot_ok ts vs.
Proof.
  intros FV H. induction H as [|x t xs ts Q _ (vs & E & S0)]; [exists []; split; [reflexivity|constructor]|].
  destruct (fits_is FV Q) as (v & E' & O). exists (v :: vs). cbn [get_slots]. rewrite E'. cbn [of_opt obind]. rewrite E. split; [reflexivity|constructor; assumption].
Qed.
Lemma untup_shape n v us : of_shape v (assemble us) -> length us = n -> exists vs, untup n v = Done vs /\ Forall2 of_shape vs us.
Proof.
  intros H <-. destruct us as [|u [|u' us]]; cbn [assemble length untup] in *.
  - inversion H; subst. exists []. split; [reflexivity|constructor].
  - exists [v]. split; [reflexivity|repeat constructor; assumption].
  - inversion H; subst. exists l. rewrite (F2_len H2). cbn [length]. rewrite Nat.eqb_refl. auto.
Qed.
Lemma NoDup_head (A : Type) (a b : list A) : NoDup (a ++ b) -> NoDup a.
Proof. induction a as [|x a IH]; intros H; [constructor|]. cbn in H. apply NoDup_cons_iff in H. destruct H as [H1 H2]. constructor; [|auto]. intros K. apply H1, in_or_app. auto. Qed.
(** Parameters of a closure. *)
Definition params_of (ms fs ks : list name) (sg : ksig) : lenv :=
  combine ms (map (fun t => (t, true)) (g_muts sg)) ++ combine fs (map (fun t => (t, false)) (g_frees sg)) ++ combine ks (map (fun t => (t, false)) (g_marks sg)).
Lemma fits_combine (b : bool) xs : forall ts vs, length ts = length xs -> Forall2 slot_ok ts vs -> fits (combine xs (map (fun t => (t, b)) ts)) (combine xs vs).
Proof.
  induction xs as [|x xs IH]; intros ts vs L FV; [constructor|]. destruct FV as [|t v ts vs O FV]; [discriminate L|]. cbn. constructor; [cbn; auto|]. apply IH; [cbn in L; lia|exact FV].
Qed.
Lemma combine_app2 A B (a1 a2 : list A) (b1 b2 : list B) : length a1 = length b1 -> combine (a1 ++ a2) (b1 ++ b2) = combine a1 b1 ++ combine a2 b2.
Proof. revert b1. induction a1 as [|a a1 IH]; intros [|b b1] L; try discriminate L; [reflexivity|]. cbn. rewrite IH; [reflexivity|]. cbn in L. lia. Qed.
Lemma get_slots_app e xs ys vs ws : get_slots e xs = Done vs -> get_slots e ys = Done ws -> get_slots e (xs ++ ys) = Done (vs ++ ws).
Proof.
  revert vs. induction xs as [|x xs IH]; intros vs E1 E2; cbn [get_slots app] in *; [injection E1 as <-; exact E2|].
  destruct (of_opt (lookup x e)); try discriminate E1. cbn [obind] in *. destruct (get_slots e xs) as [vs'| | |] eqn:E; try discriminate E1. cbn [obind] in E1.
  injection E1 as <-. rewrite (IH vs' eq_refl E2). reflexivity.
Qed.
Lemma fits_app V1 V2 e1 e2 : fits V1 e1 -> fits V2 e2 -> fits (V1 ++ V2) (e1 ++ e2).
Proof. intros F1 F2. apply Forall2_app; assumption. Qed.
(** The first name is the one that is seen. *)
Lemma known_at (ms : list name) : forall (ts : list lty) (W : lenv), NoDup ms -> length ts = length ms ->
  Forall2 (fun p t => known p (combine ms (map (fun t => (t, true)) ts) ++ W) = Some (t, true)) ms ts.
Proof.
  induction ms as [|x ms IH]; intros ts W ND L; destruct ts as [|t ts]; try discriminate L; [constructor|]. inversion ND as [|? ? NI ND']; subst. cbn [map combine app]. constructor.
  - cbn. destruct (name_eqb x x) eqn:Q; [reflexivity|]. assert (name_eqb x x = true) by (apply name_eqb_eq; reflexivity). congruence.
  - cbn in L. assert (L' : length ts = length ms) by lia. pose proof (IH ts W ND' L') as H.
    assert (K : forall (xs : list name) us, incl xs ms -> Forall2 (fun p t => known p (combine ms (map (fun t => (t, true)) ts) ++ W) = Some (t, true)) xs us ->
      Forall2 (fun p t0 => known p ((x, (t, true)) :: combine ms (map (fun t => (t, true)) ts) ++ W) = Some (t0, true)) xs us).
    { intros xs us IN FV. induction FV as [|y u xs us Q FV IHF]; constructor; [|apply IHF; intros z Iz; apply IN; right; exact Iz].
      rewrite known_one. destruct (name_eqb y x) eqn:E; [|exact Q]. apply name_eqb_eq in E. subst y. destruct NI. apply IN. left. reflexivity. }
    apply K; [apply incl_refl|exact H].
Qed.
Lemma write_back_fits V e Vi ei ms ps ts : fits Vi ei -> Forall2 (fun p t => known p Vi = Some (t, true)) ps ts -> Forall2 (assignable V) ms ts -> fits V e ->
  exists e', write_back ms ps ei e = Done e' /\ fits V e'.
Proof.
  intros FI HP. revert ms e. induction HP as [|p t ps ts K _ IH]; intros ms e HM FV; inversion HM as [|a ? ms' ? A HM']; subst; [exists e; auto|].
  destruct (fits_known FI K) as (s & L & O). cbn [write_back]. rewrite L. cbn [of_opt obind]. apply IH; [exact HM'|]. exact (fits_update FV (assign_is A) O).
Qed.

(** ---------------- the data of the state ---------------- *)
Lemma holds_none t st : data st = None -> holds t st.
Proof. intros E v Q. congruence. Qed.
Lemma holds_same t st st' : data st' = data st -> holds t st -> holds t st'.
Proof. intros E H v Q. apply H. congruence. Qed.
Lemma error_data (st : pst) m : data (error st m) = data st.
Proof. apply error_spec. Qed.
Lemma next_data (st : pst) o st' : ps_next st = Ret (o, st') -> data st' = data st.
Proof. unfold ps_next. destruct (next (current st)) as [[o' c]|]; cbn; [|discriminate]. intros Q. injection Q as <- <-. reflexivity. Qed.
Lemma prefix_data (st : pst) p b st' : ps_consume_prefix st p = (b, st') -> data st' = data st.
Proof. unfold ps_consume_prefix. destruct (consume_prefix (current st) p) as [b' c]. intros Q. injection Q as <- <-. reflexivity. Qed.
Lemma restore_data (st : pst) m st' : restore st m = Ret st' -> data st' = None.
Proof. unfold restore. destruct (data st); [discriminate|]. intros Q. injection Q as <-. reflexivity. Qed.
Lemma restore_ff_data (st : pst) m st' : restore_from_failure st m = Ret st' -> data st' = None.
Proof. unfold restore_from_failure. destruct (failed st); [apply restore_data|discriminate]. Qed.
Lemma extract_shape (st : pst) st' v t : extract_data st = Ret (st', v) -> holds t st -> data st' = None /\ of_shape v t.
Proof. unfold extract_data. destruct (is_successful st); [|discriminate]. destruct (data st) as [d|] eqn:E; [|discriminate]. intros Q H. injection Q as <- <-. split; [reflexivity|exact (H _ E)]. Qed.

(** ---------------- outcomes ---------------- *)
Definition safe (t : tsh) (V : lenv) (r : out) : Prop := match r with Done (st, e, l) => (holds t st /\ Forall AL l) /\ fits V e | Stuck => False | _ => True end.
Lemma safe_popped t V d r : safe t (d :: V) r -> safe t V (popped r).
Proof. unfold safe, popped. destruct r as [[[st e] l]| | |]; cbn [obind]; auto. intros [H FV]. inversion FV; subst. auto. Qed.
Lemma safe_popped_n t V l : forall r, safe t (l ++ V) r -> safe t V (popped_n (length l) r).
Proof. induction l as [|d l IH]; intros r H; [exact H|]. cbn [length popped_n]. apply IH. exact (safe_popped H). Qed.
Lemma safe_after t V u V' r k : safe u V' r -> (forall st e, holds u st -> fits V' e -> safe t V (k st e)) -> safe t V (after r k).
Proof.
  intros H K. unfold after. destruct r as [[[st e] l]| | |]; cbn [obind]; auto. destruct H as [[H HL] FV]. specialize (K st e H FV).
  destruct (k st e) as [[[st' e'] l']| | |]; cbn [obind]; auto. destruct K as [[K KL] KV]. cbn [safe]. split; [split; [exact K|]|exact KV].
  apply Forall_app. auto.
Qed.
Lemma safe_res A t V (r : res A) (k : A -> out) : (forall a, r = Ret a -> safe t V (k a)) -> safe t V (obind (of_res r) k).
Proof. intros H. destruct r as [a|]; cbn; [apply H; reflexivity|exact I]. Qed.

(** ---------------- closures ---------------- *)
Section Closures.
Variable P : decls.
(** A typed closure found by its number. *)
Definition closure_typed (K : kenv) (clo : closure) (sg : ksig) : Prop :=
  length (g_muts sg) = length (kmuts clo) /\ length (g_frees sg) = length (kfrees clo) /\ length (g_marks sg) = length (kmarks clo) /\
  NoDup (kmuts clo ++ kfrees clo ++ kmarks clo) /\
  exists K0, incl K0 K /\ typed P K0 (params_of (kmuts clo) (kfrees clo) (kmarks clo) sg) fresh_state (kbody clo) (g_ret sg).
Lemma typed_more K K' : incl K K' -> forall V st c t, typed P K V st c t -> typed P K' V st c t.
Proof.
  intros IN V st c t H. induction H.
  all: try (econstructor; (eassumption || (apply IN; eassumption))).
Qed.
Lemma closures_grow K l K' : closures_typed P K l K' -> incl K K'.
Proof. induction 1 as [K|K k clo l sg K' L1 L2 L3 T ND NI _ IH]; [apply incl_refl|]. intros z Iz. apply IH. apply in_or_app. left. exact Iz. Qed.
Lemma closures_keys K l K' : closures_typed P K l K' -> map fst K' = map fst K ++ map fst l /\ (NoDup (map fst K) -> NoDup (map fst K')).
Proof.
  induction 1 as [K|K k clo l sg K' L1 L2 L3 T ND NI _ [IH1 IH2]]; [rewrite app_nil_r; auto|]. split.
  - rewrite IH1, map_app, <- app_assoc. reflexivity.
  - intros N. apply IH2. rewrite map_app. cbn [map fst]. apply NoShadow.NoDup_app_intro; [exact N|repeat constructor; intros []|]. intros x Ix [<-|[]]. exact (NI Ix).
Qed.
Lemma find_key (l : ctable) k : NoDup (map fst l) -> forall clo, In (k, clo) l -> find (fun x => fst x =? k) l = Some (k, clo).
Proof.
  induction l as [|[j c] l IH]; intros N clo I0; [destruct I0|]. cbn [find fst]. inversion N as [|? ? NI N']; subst. destruct (j =? k) eqn:Q.
  - apply Nat.eqb_eq in Q. subst j. destruct I0 as [E|I0]; [congruence|]. destruct NI. apply in_map_iff. exists (k, clo). auto.
  - destruct I0 as [E|I0]; [injection E as -> ->; rewrite Nat.eqb_refl in Q; discriminate|]. exact (IH N' clo I0).
Qed.
Lemma closures_all K l K' : closures_typed P K l K' -> forall k sg, In (k, sg) K' -> In (k, sg) K \/ exists clo, In (k, clo) l /\ closure_typed K' clo sg.
Proof.
  induction 1 as [K|K k clo l sg K' L1 L2 L3 T ND NI CT IH]; intros k' sg' I0; [auto|]. destruct (IH k' sg' I0) as [I1|(c & I1 & Q)]; [|right; exists c; split; [right; exact I1|exact Q]].
  apply in_app_iff in I1. destruct I1 as [I1|[E|[]]]; [auto|]. injection E as <- <-. right. exists clo. split; [left; reflexivity|].
  repeat split; try assumption. exists K. split; [|exact T]. intros z Iz. apply (closures_grow CT). apply in_or_app. left. exact Iz.
Qed.
Lemma closures_found cl K : closures_typed P [] cl K -> forall k sg, In (k, sg) K -> exists clo, find (fun x => fst x =? k) cl = Some (k, clo) /\ closure_typed K clo sg.
Proof.
  intros CT k sg I0. destruct (closures_all CT I0) as [[]|(clo & I1 & Q)]. exists clo. split; [|exact Q]. apply find_key; [|exact I1].
  destruct (closures_keys CT) as [E N]. cbn [map app] in E. rewrite <- E. apply N. constructor.
Qed.
End Closures.

(** ---------------- soundness ---------------- *)
Section Sound.
Variable P : decls.
Variable prog : mode -> string -> option func.
Variable xf : mode -> list string -> pst -> outcome (pst * alog).
Hypothesis PT : prog_typed P prog.
Hypothesis XT : ext_typed P xf.
Hypothesis AT : act_typed P.

Definition call_at (n : nat) (m : mode) (p : callee) (st : pst) : outcome (pst * alog) :=
  match p with
  | Local id => f <~ of_opt (prog m id) ;; '(st', _, l) <~ eval prog xf n (fclosures f) (fbody f) st [] ;; Done (st', l)
  | Foreign p => xf m p st
  end.
Definition sound_at (n : nat) : Prop := forall cl K, closures_typed P [] cl K -> forall V s c t, typed P K V s c t ->
  forall st e, holds (s_data s) st -> fits V e -> safe t V (eval prog xf n cl c st e).
Lemma call_sound n m p t st : sound_at n -> P m p t -> holds SUnit st ->
  match call_at n m p st with Done (st', l) => holds t st' /\ Forall AL l | Stuck => False | _ => True end.
Proof.
  intros IH HP H. destruct p as [id|p]; cbn [call_at].
  - destruct (PT HP) as (f & E & (K & CT & T)). rewrite E. cbn [of_opt obind]. pose proof (IH _ _ CT _ _ _ _ T st [] H (Forall2_nil _)) as S0.
    destruct (eval prog xf n (fclosures f) (fbody f) st []) as [[[st' e'] l]| | |]; cbn [obind]; try exact Logic.I; [exact (proj1 S0)|destruct S0].
  - destruct (XT HP H) as [N D]. destruct (xf m p st) as [[st' l]| | |] eqn:E; [exact (D st' l eq_refl)|exact Logic.I|exact Logic.I|exact (N eq_refl)].
Qed.

Theorem eval_sound : forall n, sound_at n.
Proof.
  induction n as [|n IH]; intros cl K CT V s c t T st e H FV; [exact I|].
  pose proof (fun m p t st => call_sound (m := m) (p := p) (t := t) (st := st) IH) as CS. 
  destruct T; cbn [eval].
  - (* state *) cbn. subst t. repeat split; auto.
  - (* success *) destruct (fits_gives FV H0) as (vs & E & O). rewrite E. cbn [obind safe]. split; [|exact FV]. split; [|constructor]. intros v Q. injection Q as <-. exact O.
  - (* failure *) split; [split; [apply holds_none; reflexivity|constructor]|exact FV].
  - (* tail *) rewrite H1 in H. specialize (CS _ _ _ _ H0 H). cbn [call_at] in CS.
    match goal with |- safe _ _ (obind ?r _) => change r with (call_at n Rec (Local id) st) end. cbn [call_at].
    destruct (f <~ of_opt (prog Rec id);; ' (st', _, l) <~ eval prog xf n (fclosures f) (fbody f) st [];; Done (st', l)) as [[st' l]| | |]; cbn [obind safe]; auto.
  - (* closure *) destruct (closures_found CT H0) as (clo & E & (L1 & L2 & L3 & ND & K0 & IK & TB)). rewrite E.
    pose proof (F2_len H3) as M1. pose proof (F2_len H4) as M2. pose proof (F2_len H5) as M3.
    rewrite !app_length. replace (length ms + (length fs + length ks)) with (length (kmuts clo) + (length (kfrees clo) + length (kmarks clo))) by lia. rewrite Nat.eqb_refl.
    assert (H3' : Forall2 (is_a V) ms (g_muts sg)) by (clear - H3; induction H3; constructor; eauto using assign_is).
    destruct (fits_slots FV H3') as (v1 & G1 & O1). destruct (fits_slots FV H4) as (v2 & G2 & O2). destruct (fits_slots FV H5) as (v3 & G3 & O3).
    rewrite (get_slots_app G1 (get_slots_app G2 G3)). cbn [obind].
    assert (FI : fits (params_of (kmuts clo) (kfrees clo) (kmarks clo) sg) (combine (kmuts clo ++ kfrees clo ++ kmarks clo) (v1 ++ v2 ++ v3))).
    { pose proof (F2_len O1). pose proof (F2_len O2). pose proof (F2_len O3). rewrite !combine_app2 by congruence. unfold params_of. repeat apply fits_app; apply fits_combine; assumption. }
    rewrite H2 in H. pose proof (IH _ _ CT _ _ _ _ (typed_more IK TB) st _ H FI) as S0.
    destruct (eval prog xf n cl (kbody clo) st _) as [[[st' e1] l]| | |]; cbn [obind]; auto. destruct S0 as [S1 S2].
    destruct (write_back_fits S2 (known_at _ (NoDup_head ND) L1) H3 FV) as (e' & W & FV'). rewrite W. cbn [obind safe]. subst t. destruct S1. auto.
  - (* mark *) apply safe_res. intros m0 _. eapply safe_popped. eapply IH; eauto. apply fits_declare; [exact FV|constructor].
  - eapply safe_popped. eapply IH; eauto. apply fits_declare; [exact FV|constructor].
  - eapply safe_popped. eapply IH; eauto. apply fits_declare; [exact FV|constructor].
  - eapply safe_popped. eapply IH; eauto. apply fits_declare; [exact FV|constructor; constructor].
  - eapply safe_popped. eapply IH; eauto. apply fits_declare; [exact FV|constructor; constructor; constructor].
  - (* action *) destruct (fits_vals FV H0) as (vs & E & O). rewrite E. cbn [obind]. eapply safe_after with (V' := V) (u := s_data st0).
    { split; [split; [assumption|]|assumption]. destruct un; repeat constructor. exact (AT (H1 eq_refl) O). }
    intros st1 e1 Hs1 F1. eapply safe_popped. eapply IH; eauto. apply fits_declare; [exact F1|]. constructor. constructor. apply MF. destruct un, bx; repeat constructor.
  - (* span *) destruct (fits_stream FV H0) as (l & E). rewrite E. cbn [obind]. apply safe_res. intros h _. eapply safe_popped. eapply IH; eauto. apply fits_declare; [exact FV|].
    constructor. constructor. apply MF. destruct rg; constructor.
  - (* set *) destruct (fits_bool FV (assign_is H0)) as (b & E). rewrite E. cbn [obind]. eapply IH; eauto. eapply fits_update; [exact FV|exact (assign_is H0)|constructor].
  - (* some *) destruct (fits_val FV (assign_is H0)) as (b & E & _). rewrite E. cbn [obind]. destruct (fits_gives FV H1) as (vs & E' & O). rewrite E'. cbn [obind]. eapply IH; eauto.
    eapply fits_update; [exact FV|exact (assign_is H0)|constructor; constructor; exact O].
  - (* push *) destruct (fits_val FV (assign_is H0)) as (b & E & O'). rewrite E. cbn [obind]. inversion O'; subst. destruct (fits_gives FV H1) as (vs & E' & O). rewrite E'. cbn [obind]. eapply IH; eauto.
    eapply fits_update; [exact FV|exact (assign_is H0)|constructor; constructor]. apply Forall_app. split; [assumption|repeat constructor; exact O].
  - (* next *) apply safe_res. intros [o st'] E. pose proof (holds_same (next_data E) H) as H'. destruct o; eapply IH; eauto.
  - apply safe_res. intros [o st'] E. pose proof (holds_same (next_data E) H) as H'. destruct o; [|eapply IH; eauto]. eapply safe_popped. eapply IH; eauto. apply fits_declare; [exact FV|constructor; constructor].
  - apply safe_res. intros [o st'] E. pose proof (holds_same (next_data E) H) as H'. destruct o as [ch|]; [|eapply IH; eauto]. destruct (eval_cond k ch); [|eapply IH; eauto].
    eapply safe_popped. eapply IH; eauto. apply fits_declare; [exact FV|constructor; constructor].
  - (* prefix *) destruct (ps_consume_prefix st (enc l)) as [b st'] eqn:E. pose proof (holds_same (prefix_data E) H) as H'. destruct b; eapply IH; eauto.
  - (* error *) eapply IH; eauto. exact (holds_same (error_data st m) H).
  - (* restore *) destruct (fits_stream FV H2) as (s & E). rewrite E. cbn [obind]. apply safe_res. intros st' E'. eapply IH; eauto. exact (holds_none _ (restore_data E')).
  - destruct (fits_stream FV H0) as (s & E). rewrite E. cbn [obind]. apply safe_res. intros st' E'. eapply IH; eauto. exact (holds_none _ (restore_ff_data E')).
  - (* let *) eapply safe_after; [eapply IH; eauto|]. intros st1 e1 H1 F1. eapply IH; eauto.
  - eapply safe_after; [eapply IH; eauto|]. intros st1 e1 H1' F1. eapply IH; eauto.
  - (* if failed *) destruct (is_failed st); [|eapply IH; eauto]. destruct (fits_stream FV H2) as (s & E). rewrite E. cbn [obind]. apply safe_res. intros st' E'. eapply IH; eauto. exact (holds_none _ (restore_ff_data E')).
  - (* if *) destruct (fits_bool FV H0) as (b & E). rewrite E. cbn [obind]. destruct b; eapply IH; eauto.
  - (* test *) destruct (fits_stream FV H2) as (s & E). rewrite E. cbn [obind]. apply safe_res. intros st' E'. destruct (is_successful st); eapply IH; eauto; exact (holds_none _ (restore_data E')).
  - (* recognizer *) rewrite H2 in H. specialize (CS _ _ _ _ H0 H).
    match goal with |- safe _ _ (obind ?r _) => change r with (call_at n Rec p st) end.
    destruct (call_at n Rec p st) as [[st' l]| | |]; cbn [obind]; auto. eapply safe_after with (V' := V) (u := SUnit); [split; [exact CS|exact FV]|]. intros st1 e1 H1' F1.
    destruct (is_successful st1); eapply IH; eauto; [apply holds_none; reflexivity|rewrite H2; exact H1'].
  - (* parser *) rewrite H4 in H. specialize (CS _ _ _ _ H0 H).
    match goal with |- safe _ _ (obind ?r _) => change r with (call_at n Par p st) end.
    destruct (call_at n Par p st) as [[st' l]| | |]; cbn [obind]; auto. eapply safe_after with (V' := V) (u := assemble us); [split; [exact CS|exact FV]|]. intros st1 e1 H1' F1.
    destruct (is_successful st1); [|eapply IH; eauto; apply holds_none; reflexivity]. apply safe_res. intros [st2 v] E. destruct (extract_shape E H1') as [D O].
    destruct (untup_shape O H1) as (vs & E' & O'). rewrite E'. cbn [obind].
    assert (LV : length vs = length xs) by (rewrite (F2_len O'); exact H1).
    replace (length xs) with (length (combine xs (map (fun u => (LVal u, true)) us))) by (rewrite combine_length, map_length; lia). apply safe_popped_n. eapply IH; eauto; [exact (holds_none _ D)|].
    apply fits_app; [|exact F1]. pose proof (fits_combine true (xs := xs) (ts := map LVal us) (vs := map SVal vs)) as FC. rewrite map_map in FC. apply FC; [rewrite map_length; exact H1|].
    clear - O'. induction O'; constructor; [constructor; assumption|assumption].
  - (* loop *) eapply safe_after; [eapply IH; eauto|]. intros st1 e1 H1' F1. destruct (is_successful st1); [|eapply IH; eauto].
    assert (X : exists e2, match x with Some x => k <~ get_nat e1 x ;; Done (update x (SNat (k + 1)) e1) | None => Done e1 end = Done e2 /\ fits V e2).
    { destruct x as [x|]; [|exists e1; auto]. destruct (fits_nat F1 (assign_is H1)) as (k & E). rewrite E. eexists. split; [reflexivity|]. eapply fits_update; [exact F1|exact (assign_is H1)|constructor]. }
    destruct X as (e2 & E2 & F2). rewrite E2. cbn [obind]. apply safe_res. intros sm _. destruct (fits_stream F2 (assign_is H2)) as (s2 & E3). rewrite E3. cbn [obind].
    eapply IH; [exact CT| |exact H1'|eapply fits_update; [exact F2|exact (assign_is H2)|constructor]]. apply t_loop; assumption.
  - (* less *) destruct (fits_nat FV H0) as (k & E). rewrite E. cbn [obind]. destruct (k <? n0); eapply IH; eauto.
Qed.
End Sound.
End Foreign.
