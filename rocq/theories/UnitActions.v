(** The errors on semantic actions without a value: which actions type inference reports.

    The diagnostic is emitted when the bottom-up visitor gives its type to an action (typing/ast.rs:53-58, 63-91), but is
    not recorded in [surface.error]: inference goes on.  The functions below follow the visitors of Typing.v and return the
    arena indices of the actions reported, in the order of emission; the state is threaded by the visitors themselves. *)
From Verif Require Import Base Grammar WellFormed Analysis AnalysisFacts Typing TypeRules SurfaceFacts RefFacts DepthFacts TypingFuel.
Set Implicit Arguments. Unset Strict Implicit.
Open Scope string_scope. Open Scope nat_scope. Open Scope list_scope.

Section Notes.
Variable G : grammar.
Variable E : tenv.

(** typing/ast.rs:66-83: a function of the grammar without a return type, or the type of which is that of [()]; two types are
    compared as syntax trees in Rust, here as the texts [return_type] answers. *)
Definition unit_fn (f : action) : bool :=
  match f with
  | ActPath [id] => match ret_of E id with Some None => true | Some (Some t) => String.eqb t "()" | None => false end
  | _ => false
  end.

(** visitor.rs:158-161 [walk_exprs]. *)
Definition along (step : nat -> tst -> wres tst) (vn : nat -> tst -> wres (list nat)) : list nat -> tst -> wres (list nat) :=
  fix go (l : list nat) (st : tst) : wres (list nat) :=
  match l with
  | [] => WOk []
  | i :: l' => wbind (vn i st) (fun a => wbind (step i st) (fun st' => wbind (go l' st') (fun b => WOk (a ++ b))))
  end.
Definition after_visit (ve : nat -> tst -> wres (ity * tst)) (i : nat) (st : tst) : wres tst := wbind (ve i st) (fun q => WOk (snd q)).
(** surface.rs:52-70. *)
Definition rule_notes (vn : list string -> nat -> tst -> wres (list nat)) (path : list string) (id : string) (st : tst) : wres (list nat) :=
  match find_rule G id with
  | None => WPanic
  | Some rl =>
    wbind (tget (tys st) (rexpr rl)) (fun t =>
    match t with
    | IInfer => if existsb (String.eqb id) path then WOk [] else vn (id :: path) (rexpr rl) st
    | _ => WOk []
    end)
  end.
(** surface.rs:131-197; the action, [i], is reported by [resolve_action_type] (surface.rs:149-151). *)
Definition walk_notes (ve : list string -> nat -> tst -> wres (ity * tst)) (vn : list string -> nat -> tst -> wres (list nat))
  (path : list string) (i : nat) (e : expr) (st : tst) : wres (list nat) :=
  match e with
  | EAct _ _ f => WOk (if unit_fn f then [i] else [])
  | ENT id => rule_notes vn path id st
  | EStar j | EPlus j | EOpt j | ESpan j | ERange j => vn path j st
  | ESeq l | EAlt l => along (after_visit (ve path)) (vn path) l st
  | _ => WOk []
  end.
(** surface.rs:118-129. *)
Fixpoint sexpr_notes (fuel : nat) (path : list string) (i : nat) (st : tst) : wres (list nat) :=
  match fuel with
  | 0 => WLoop
  | S k =>
    wbind (tget (tys st) i) (fun t =>
    match t with
    | IInfer => match expr_of G i with None => WPanic | Some e => walk_notes (sexpr G E k) (sexpr_notes k) path i e st end
    | _ => WOk []
    end)
  end.
(** surface.rs:41-50. *)
Fixpoint surface_notes (fuel : nat) (rs : list rule) (st : tst) : wres (list nat) :=
  match rs with
  | [] => WOk []
  | rl :: rs' => wbind (rule_notes (sexpr_notes fuel) [] (rname rl) st) (fun a =>
                 wbind (srule G (sexpr G E fuel) [] (rname rl) st) (fun q =>
                 wbind (surface_notes fuel rs' (snd q)) (fun b => WOk (a ++ b))))
  end.

(** depth.rs:183-219 with visitor.rs:102-161. *)
Definition dwalk_notes (se : nat -> tst -> wres (ity * tst)) (sn : nat -> tst -> wres (list nat))
  (vd : bool -> option ity -> nat -> tst -> wres tst) (vn : bool -> option ity -> nat -> tst -> wres (list nat))
  (uu : bool) (asc : option ity) (e : expr) (st : tst) : wres (list nat) :=
  match e with
  | EStr _ | EAny | EClass _ | ENT _ | EExt _ => WOk []
  | ESeq l =>
    match asc with
    | Some _ => along (fun i st => wbind (tget (tys st) i) (fun t => vd uu (if is_unit_kind t then None else asc) i st))
                      (fun i st => wbind (tget (tys st) i) (fun t => vn uu (if is_unit_kind t then None else asc) i st)) l st
    | None => along (vd uu None) (vn uu None) l st
    end
  | EAlt l => along (vd uu asc) (vn uu asc) l st
  | EStar i | EPlus i | EOpt i | ENot i | EAnd i | ESpan i | ERange i => vn uu asc i st
  | EAsc i t =>
    wbind (match asc with Some aty => check_ascription E t aty st | None => WOk st end) (fun st =>
    wbind (if uu then WOk [] else sn i st) (fun a =>
    wbind (if uu then WOk st else wbind (se i st) (fun q => WOk (snd q))) (fun st =>
    wbind (vn uu (Some t) i st) (fun b => WOk (a ++ b)))))
  | EAct i _ _ => wbind (sn i st) (fun a => wbind (se i st) (fun q => wbind (vn uu None i (snd q)) (fun b => WOk (a ++ b))))
  end.
(** depth.rs:154-181. *)
Fixpoint dexpr_notes (fuel sfuel : nat) (uu : bool) (asc : option ity) (i : nat) (st : tst) : wres (list nat) :=
  match fuel with
  | 0 => WLoop
  | S k =>
    wbind (tget (tys st) i) (fun t =>
    match expr_of G i with
    | None => WPanic
    | Some e =>
      let walk uu st := dwalk_notes (sexpr G E sfuel []) (sexpr_notes sfuel []) (dexpr G E k sfuel) (dexpr_notes k sfuel) uu asc e st in
      if uu then walk true (tset i (IRegular TUnit) st)
      else match asc with
           | None => walk (is_unit_kind t) st
           | Some aty =>
             if is_external t then walk false (tset i aty st)
             else wbind (check_ascription E t aty st) (walk false)
           end
    end)
  end.
(** depth.rs:101-105. *)
Definition depth_notes (fuel sfuel : nat) (st : tst) : wres (list nat) :=
  along (dexpr G E fuel sfuel false None) (dexpr_notes fuel sfuel false None) (map rexpr (rules G)) st.
(** depth.rs:32-53: the top-down pass is not reached when the bottom-up one recorded an error. *)
Definition notes_from (fuel : nat) (st : tst) : wres (list nat) :=
  wbind (surface_notes fuel (rules G) st) (fun a =>
  wbind (surface G E fuel st) (fun st => if terr st then WOk a else
  wbind (reduce_all_rec G st) (fun st =>
  wbind (depth_notes fuel fuel st) (fun b => WOk (a ++ b))))).
End Notes.
(** typing/mod.rs:29-32. *)
Definition unit_notes (E : tenv) (fuel : nat) (G : grammar) : wres (list nat) := notes_from (igrammar G) E fuel (mkT (itable G E) false).

(** ---------------- more fuel gives the same ---------------- *)
Section Mono.
Variable G : grammar.
Variables E E' : tenv.
Hypothesis HR : ret_of E' = ret_of E.
Hypothesis HS : span_ty E' = span_ty E.
Hypothesis HRG : range_ty E' = range_ty E.
Hypothesis HC : cmp_fuel E <= cmp_fuel E'.
#[local] Hint Resolve below_refl below_loop below_bind : core.
Lemma along_below step step' vn vn' : (forall i st, below (step i st) (step' i st)) -> (forall i st, below (vn i st) (vn' i st)) -> forall l st, below (along step vn l st) (along step' vn' l st).
Proof. intros S1 V. induction l as [|i l IH]; intros st; cbn [along]; auto. Qed.
Lemma unit_fn_same f : unit_fn E' f = unit_fn E f. Proof. unfold unit_fn. rewrite HR. reflexivity. Qed.
Lemma rule_notes_below vn vn' path id st : (forall p i st, below (vn p i st) (vn' p i st)) -> below (rule_notes G vn path id st) (rule_notes G vn' path id st).
Proof. intros V. unfold rule_notes. destruct (find_rule G id) as [rl|]; auto. apply below_bind; auto. intros t. destruct t; auto. destruct (existsb (String.eqb id) path); auto. Qed.
Lemma sexpr_notes_below : forall k k', k <= k' -> forall path i st, below (sexpr_notes G E k path i st) (sexpr_notes G E' k' path i st).
Proof.
  induction k as [|k IH]; intros k' L path i st; [apply below_loop|]. destruct k' as [|k']; [lia|]. cbn [sexpr_notes]. apply below_bind; auto. intros t. destruct t; auto.
  destruct (expr_of G i) as [e|]; auto. assert (V : forall p i st, below (sexpr_notes G E k p i st) (sexpr_notes G E' k' p i st)) by (intros; apply IH; lia).
  assert (SV : forall p i st, below (after_visit (sexpr G E k p) i st) (after_visit (sexpr G E' k' p) i st)).
  { intros. unfold after_visit. apply below_bind; auto. apply sexpr_below; auto. lia. }
  unfold walk_notes. destruct e; auto using along_below, rule_notes_below. rewrite unit_fn_same. auto.
Qed.
Lemma surface_notes_below k k' : k <= k' -> forall rs st, below (surface_notes G E k rs st) (surface_notes G E' k' rs st).
Proof.
  intros L. induction rs as [|rl rs IH]; intros st; cbn [surface_notes]; auto. apply below_bind; [apply rule_notes_below; intros; apply sexpr_notes_below, L|]. intros a.
  apply below_bind; auto. apply srule_below, sexpr_below; auto.
Qed.
Lemma dexpr_notes_below : forall k k', k <= k' -> forall s s', s <= s' -> forall uu asc i st, below (dexpr_notes G E k s uu asc i st) (dexpr_notes G E' k' s' uu asc i st).
Proof.
  induction k as [|k IH]; intros k' L s s' LS uu asc i st; [apply below_loop|]. destruct k' as [|k']; [lia|]. cbn [dexpr_notes]. apply below_bind; auto. intros t.
  destruct (expr_of G i) as [e|]; auto.
  assert (SE : forall i st, below (sexpr G E s [] i st) (sexpr G E' s' [] i st)) by (intros; apply sexpr_below; auto).
  assert (SN : forall i st, below (sexpr_notes G E s [] i st) (sexpr_notes G E' s' [] i st)) by (intros; apply sexpr_notes_below, LS).
  assert (VD : forall uu asc i st, below (dexpr G E k s uu asc i st) (dexpr G E' k' s' uu asc i st)) by (intros; apply dexpr_below; auto; lia).
  assert (VN : forall uu asc i st, below (dexpr_notes G E k s uu asc i st) (dexpr_notes G E' k' s' uu asc i st)) by (intros; apply IH; auto; lia).
  assert (X : forall uu st, below (dwalk_notes E (sexpr G E s []) (sexpr_notes G E s []) (dexpr G E k s) (dexpr_notes G E k s) uu asc e st)
    (dwalk_notes E' (sexpr G E' s' []) (sexpr_notes G E' s' []) (dexpr G E' k' s') (dexpr_notes G E' k' s') uu asc e st)).
  { clear uu st. intros uu st. unfold dwalk_notes. destruct e; auto.
    - destruct asc; apply along_below; auto.
    - apply along_below; auto.
    - apply below_bind; [destruct asc; auto; apply ascription_below; auto|]. intros st1. apply below_bind; [destruct uu; auto|]. intros a. apply below_bind; auto. destruct uu; auto. }
  destruct uu; auto. destruct asc as [aty|]; auto. destruct (is_external t); auto. apply below_bind; auto. apply ascription_below; auto.
Qed.
Lemma notes_below k k' st : k <= k' -> below (notes_from G E k st) (notes_from G E' k' st).
Proof.
  intros L. unfold notes_from. apply below_bind; [apply surface_notes_below, L|]. intros a. apply below_bind; [apply surface_below; auto|]. intros st1. destruct (terr st1); auto.
  apply below_bind; auto. intros st2. apply below_bind; auto. apply along_below; intros; [apply dexpr_below|apply dexpr_notes_below]; auto.
Qed.
End Mono.
Lemma unit_notes_more E E' fuel fuel' G : ret_of E' = ret_of E -> span_ty E' = span_ty E -> range_ty E' = range_ty E -> cmp_fuel E <= cmp_fuel E' -> fuel <= fuel' ->
  unit_notes E fuel G <> WLoop -> unit_notes E' fuel' G = unit_notes E fuel G.
Proof. intros H1 H2 H3 H4 L H. apply below_ok; [|exact H]. unfold unit_notes, itable. rewrite H2. apply notes_below; auto. Qed.

(** ---------------- what is reported ---------------- *)
Definition open (T : list ity) (x : nat) : Prop := nth_error T x = Some IInfer.
Definition closed (T : list ity) (x : nat) : Prop := exists u, nth_error T x = Some u /\ u <> IInfer.
Lemma open_closed T x : x < length T -> open T x \/ closed T x.
Proof. intros L. destruct (nth_error T x) as [u|] eqn:Q; [|apply nth_error_None in Q; lia]. destruct u; [left; exact Q|right; eexists; (split; [exact Q|discriminate])..]. Qed.
Lemma open_not T x : open T x -> closed T x -> False. Proof. unfold open. intros A (u & B & N). congruence. Qed.
Lemma open_lt T x : open T x -> x < length T. Proof. intros H. apply nth_error_Some. unfold open in H. congruence. Qed.
(** Only open slots change. *)
Definition fills (T T' : list ity) : Prop := length T' = length T /\ forall j, nth_error T' j = nth_error T j \/ open T j.
Lemma fills_refl T : fills T T. Proof. split; [reflexivity|]. auto. Qed.
Lemma fills_trans T1 T2 T3 : fills T1 T2 -> fills T2 T3 -> fills T1 T3.
Proof. intros [L1 A] [L2 B]. split; [congruence|]. intros j. destruct (A j) as [Q|Q]; [|auto]. destruct (B j) as [R|R]; [left; congruence|right]. unfold open in *. congruence. Qed.
Lemma fills_open T T' x : fills T T' -> open T' x -> open T x.
Proof. intros [_ A] O. destruct (A x) as [Q|Q]; [|exact Q]. unfold open in *. congruence. Qed.
Lemma fills_closed T T' x : fills T T' -> closed T x -> nth_error T' x = nth_error T x.
Proof. intros [_ A] C. destruct (A x) as [Q|Q]; [exact Q|destruct (open_not Q C)]. Qed.
Lemma closed_fills T T' x : fills T T' -> closed T x -> closed T' x.
Proof. intros F C. pose proof (fills_closed F C) as Q. destruct C as (u & Eu & N). exists u. split; [congruence|exact N]. Qed.

Lemma nodup_app (A : Type) (l m : list A) : NoDup l -> NoDup m -> (forall x, In x l -> In x m -> False) -> NoDup (l ++ m).
Proof.
  induction 1 as [|x l NI ND IH]; intros M S1; [exact M|]. cbn [app]. constructor; [|apply IH; [exact M|intros y I1 I2; exact (S1 y (or_intror I1) I2)]].
  intros I0. apply in_app_or in I0. destruct I0 as [I0|I0]; [exact (NI I0)|exact (S1 x (or_introl eq_refl) I0)].
Qed.
Section Traced.
Variable U : nat -> Prop.
Record traced (T T' : list ity) (l : list nat) : Prop := {
  tr_fills : fills T T';
  tr_once : NoDup l;
  tr_in : forall x, In x l -> U x /\ open T x /\ closed T' x;
  tr_all : forall x, U x -> open T x -> closed T' x -> In x l
}.
Lemma traced_refl T : traced T T [].
Proof. split; [apply fills_refl|constructor|intros x []|]. intros x _ O C. destruct (open_not O C). Qed.
Lemma traced_trans T1 T2 T3 l1 l2 : traced T1 T2 l1 -> traced T2 T3 l2 -> traced T1 T3 (l1 ++ l2).
Proof.
  intros [F1 N1 I1 A1] [F2 N2 I2 A2]. split.
  - exact (fills_trans F1 F2).
  - apply nodup_app; try assumption. intros x X1 X2. destruct (I1 x X1) as (_ & _ & C), (I2 x X2) as (_ & O & _). exact (open_not O C).
  - intros x I0. apply in_app_or in I0. destruct I0 as [I0|I0]; [destruct (I1 x I0) as (A & B & C)|destruct (I2 x I0) as (A & B & C)].
    + split; [exact A|]. split; [exact B|]. exact (closed_fills F2 C).
    + split; [exact A|]. split; [exact (fills_open F1 B)|exact C].
  - intros x Ux O C. apply in_or_app. destruct (@open_closed T2 x) as [O2|C2]; [rewrite (proj1 F1); exact (open_lt O)|right; auto|left; auto].
Qed.
Lemma traced_set T T' l i t : traced T T' l -> open T i -> ~ U i -> traced T (update T' i t) l.
Proof.
  intros [F N I0 A] O NU. assert (L : i < length T') by (rewrite (proj1 F); exact (open_lt O)).
  assert (S1 : forall j, j <> i -> nth_error (update T' i t) j = nth_error T' j). { intros j D. rewrite nth_update by exact L. destruct (Nat.eqb_spec j i); congruence. }
  assert (S2 : forall x, U x -> x <> i) by (intros x Ux ->; auto). split.
  - split; [rewrite length_update by exact L; exact (proj1 F)|]. intros j. destruct (Nat.eq_dec j i) as [->|D]; [auto|]. rewrite (S1 j D). exact (proj2 F j).
  - exact N.
  - intros x Ix. destruct (I0 x Ix) as (A1 & A2 & A3). split; [exact A1|]. split; [exact A2|]. unfold closed. rewrite (S1 x (S2 x A1)). exact A3.
  - intros x Ux Ox C. apply A; [exact Ux|exact Ox|]. unfold closed in *. rewrite (S1 x (S2 x Ux)) in C. exact C.
Qed.
Lemma traced_one T i t : open T i -> U i -> t <> IInfer -> traced T (update T i t) [i].
Proof.
  intros O Ui Nt. pose proof (open_lt O) as L. assert (AT : nth_error (update T i t) i = Some t) by (rewrite nth_update, Nat.eqb_refl by exact L; reflexivity).
  assert (S1 : forall j, j <> i -> nth_error (update T i t) j = nth_error T j). { intros j D. rewrite nth_update by exact L. destruct (Nat.eqb_spec j i); congruence. }
  split.
  - split; [apply length_update, L|]. intros j. destruct (Nat.eq_dec j i) as [->|D]; [auto|left; auto].
  - constructor; [intros []|constructor].
  - intros x [<-|[]]. split; [exact Ui|]. split; [exact O|exists t; auto].
  - intros x _ Ox C. destruct (Nat.eq_dec x i) as [->|D]; [left; reflexivity|]. exfalso. destruct C as (v & Ev & Nv). rewrite (S1 x D) in Ev. unfold open in Ox. congruence.
Qed.
End Traced.

Section Surface.
Variable G : grammar.
Variable E : tenv.
(** The actions to report. *)
Definition unit_act (x : nat) : Prop := exists j b f, expr_of G x = Some (EAct j b f) /\ unit_fn E f = true.
Local Notation traced := (traced unit_act).

Lemma action_regular b f : unit_fn E f = true -> exists u, action_type E b f = IRegular u /\ (u = TUnit \/ exists s, u = TRust s).
Proof.
  unfold unit_fn, action_type. destruct f as [[|id [|]]|]; try discriminate. destruct (ret_of E id) as [[t|]|]; try discriminate; intros _.
  - exists (TRust (if b then "Box<" ++ t ++ ">" else t)%string). split; [reflexivity|]. right. eexists. reflexivity.
  - exists TUnit. auto.
Qed.
(** Each visit, with what it reports. *)
Definition told (ve : list string -> nat -> tst -> wres (ity * tst)) (vn : list string -> nat -> tst -> wres (list nat)) : Prop := forall path i st t st',
  ve path i st = WOk (t, st') -> exists l, vn path i st = WOk l /\ traced (tys st) (tys st') l /\ (open (tys st) i -> nth_error (tys st') i = Some t) /\ (open (tys st) i -> unit_act i -> exists u, t = IRegular u).

Lemma srule_told ve vn path id st t st' : told ve vn -> srule G ve path id st = WOk (t, st') -> exists l, rule_notes G vn path id st = WOk l /\ traced (tys st) (tys st') l.
Proof.
  intros V H. unfold srule in H. unfold rule_notes. destruct (find_rule G id) as [rl|] eqn:FN; [|discriminate]. apply wbind_ok in H. destruct H as (v & Ev & H). rewrite Ev. cbn [wbind].
  destruct v as [|r| | |v]; try (apply WOk_inj', pair_inj in H; destruct H as [_ <-]; exists []; split; [reflexivity|apply traced_refl]).
  destruct (existsb (String.eqb id) path); [apply WOk_inj', pair_inj in H; destruct H as [_ <-]; exists []; split; [reflexivity|apply traced_refl]|].
  apply wbind_ok in H. destruct H as ([t1 st1] & E1 & H). apply wbind_ok in H. destruct H as (t2 & E2 & H). cbn [fst snd] in *. apply WOk_inj', pair_inj in H. destruct H as [_ <-].
  apply tget_ok in Ev. destruct (V _ _ _ _ _ E1) as (l & El & TR & AT & UR). exists l. split; [exact El|]. unfold tset. cbn [tys].
  assert (DEC : t2 = t1 \/ ~ unit_act (rexpr rl)).
  { destruct t1 as [|r| | |u]; try (left; apply WOk_inj' in E2; congruence). right. intros Ua. destruct (UR Ev Ua) as (u & Q). discriminate. }
  destruct DEC as [->|NU]; [rewrite (update_same (AT Ev)); exact TR|]. exact (traced_set _ TR Ev NU).
Qed.
Lemma along_told ve vn path : told ve vn -> forall l st ts st', sexprs (ve path) l st = WOk (ts, st') -> exists ls, along (after_visit (ve path)) (vn path) l st = WOk ls /\ traced (tys st) (tys st') ls.
Proof.
  intros V. induction l as [|c l IL]; intros st ts st' K; cbn [sexprs along] in *; [apply WOk_inj', pair_inj in K; destruct K as [_ <-]; exists []; split; [reflexivity|apply traced_refl]|].
  apply wbind_ok in K. destruct K as ([a s1] & Ka & K). apply wbind_ok in K. destruct K as ([x s2] & Kx & K). cbn [fst snd] in *. apply WOk_inj', pair_inj in K. destruct K as [_ <-].
  destruct (V _ _ _ _ _ Ka) as (l1 & E1 & T1 & _). destruct (IL _ _ _ Kx) as (l2 & E2 & T2). exists (l1 ++ l2). rewrite E1. cbn [wbind]. unfold after_visit at 1. rewrite Ka. cbn [wbind snd]. rewrite E2. cbn [wbind].
  split; [reflexivity|exact (traced_trans T1 T2)].
Qed.
Lemma sexpr_told : forall k, told (sexpr G E k) (sexpr_notes G E k).
Proof.
  induction k as [|k IH]; intros path i st t st' H; [discriminate|]. cbn [sexpr sexpr_notes] in *. apply wbind_ok in H. destruct H as (u & Eu & H). rewrite Eu. cbn [wbind]. apply tget_ok in Eu.
  assert (MEMO : u <> IInfer -> WOk (u, st) = WOk (t, st') -> exists l, WOk [] = WOk l /\ traced (tys st) (tys st') l /\ (open (tys st) i -> nth_error (tys st') i = Some t) /\ (open (tys st) i -> unit_act i -> exists u, t = IRegular u)).
  { intros N K. apply WOk_inj', pair_inj in K. destruct K as [_ <-]. exists []. split; [reflexivity|]. split; [apply traced_refl|]. unfold open. split; intros O; congruence. }
  destruct u as [|r| | |u]; try (apply MEMO; [discriminate|exact H]). clear MEMO.
  destruct (expr_of G i) as [e|] eqn:Ee; [|discriminate]. apply wbind_ok in H. destruct H as ([t1 st1] & E1 & H). cbn [fst snd] in H.
  apply wbind_ok in H. destruct H as (t2 & E2 & H). apply WOk_inj', pair_inj in H. destruct H as [<- <-]. unfold tset. cbn [tys].
  assert (FIN : forall l, ~ unit_act i -> traced (tys st) (tys st1) l -> exists l0, WOk l = WOk l0 /\ traced (tys st) (update (tys st1) i t2) l0 /\
    (open (tys st) i -> nth_error (update (tys st1) i t2) i = Some t2) /\ (open (tys st) i -> unit_act i -> exists u, t2 = IRegular u)).
  { intros l NU TR. exists l. split; [reflexivity|]. split; [exact (traced_set _ TR Eu NU)|]. split; [|intros _ Ua; destruct (NU Ua)]. intros O.
    rewrite nth_update, Nat.eqb_refl by (rewrite (proj1 (tr_fills TR)); exact (open_lt O)). reflexivity. }
  assert (NA : (forall j b f, e <> EAct j b f) -> ~ unit_act i) by (intros Ne (j & b & f & Q & _); rewrite Ee in Q; injection Q as ->; exact (Ne _ _ _ eq_refl)).
  assert (LEAF : forall w, (forall j b f, e <> EAct j b f) -> WOk (w, st) = WOk (t1, st1) -> exists l0, WOk [] = WOk l0 /\ traced (tys st) (update (tys st1) i t2) l0 /\
    (open (tys st) i -> nth_error (update (tys st1) i t2) i = Some t2) /\ (open (tys st) i -> unit_act i -> exists u, t2 = IRegular u)).
  { intros w Ne K. apply WOk_inj', pair_inj in K. destruct K as [_ <-]. exact (FIN [] (NA Ne) (traced_refl _ _)). }
  assert (CHILD : forall j v, (forall j b f, e <> EAct j b f) -> wbind (sexpr G E k path j st) (fun q => WOk (v q, snd q)) = WOk (t1, st1) ->
    exists l0, sexpr_notes G E k path j st = WOk l0 /\ traced (tys st) (update (tys st1) i t2) l0 /\
    (open (tys st) i -> nth_error (update (tys st1) i t2) i = Some t2) /\ (open (tys st) i -> unit_act i -> exists u, t2 = IRegular u)).
  { intros j v Ne K. apply wbind_ok in K. destruct K as ([a b] & Ka & K). cbn [snd] in K. apply WOk_inj', pair_inj in K. destruct K as [_ <-]. destruct (IH _ _ _ _ _ Ka) as (l & El & TR & _).
    rewrite El. exact (FIN l (NA Ne) TR). }
  destruct e as [lit| |cls|id|p|l|l|j|j|j|j|j|j b f|j u|j|j]; cbn [swalk walk_notes] in *; try (refine (LEAF _ _ E1); congruence); try (refine (CHILD j _ _ E1); congruence).
  - destruct (srule_told IH E1) as (l & El & TR). rewrite El. refine (FIN l _ TR). apply NA. congruence.
  - apply wbind_ok in E1. destruct E1 as ([ts sc] & Es & E1). cbn [snd] in E1. apply WOk_inj', pair_inj in E1. destruct E1 as [_ <-]. destruct (along_told IH Es) as (ls & El & TR). rewrite El. refine (FIN ls _ TR). apply NA. congruence.
  - apply wbind_ok in E1. destruct E1 as ([ts sc] & Es & E1). cbn [fst snd] in E1. apply wbind_ok in E1. destruct E1 as (r & Er & E1). apply WOk_inj' in E1.
    destruct (along_told IH Es) as (ls & El & TR). rewrite El. destruct r as [v|]; apply pair_inj in E1; destruct E1 as [_ <-]; (refine (FIN ls _ TR); apply NA; congruence).
  - apply WOk_inj', pair_inj in E1. destruct E1 as [<- <-]. destruct (unit_fn E f) eqn:Uf.
    + destruct (action_regular b Uf) as (u & Qu & Su). rewrite Qu in E2. assert (t2 = IRegular u) as -> by (destruct Su as [->|(s & ->)]; apply WOk_inj' in E2; congruence).
      exists [i]. split; [reflexivity|]. assert (Ua : unit_act i) by (exists j, b, f; auto). split; [apply (traced_one Eu Ua); discriminate|]. split; [|eauto].
      intros O. rewrite nth_update, Nat.eqb_refl by exact (open_lt O). reflexivity.
    + refine (FIN [] _ (traced_refl _ _)). intros (j' & b' & f' & Q & Uf'). rewrite Ee in Q. assert (f' = f) as -> by congruence. congruence.
Qed.
Lemma surface_told k : forall rs st st', surface_from G E k rs st = WOk st' -> exists l, surface_notes G E k rs st = WOk l /\ traced (tys st) (tys st') l.
Proof.
  induction rs as [|rl rs IH]; intros st st' H; cbn [surface_from surface_notes] in *; [injection H as <-; exists []; split; [reflexivity|apply traced_refl]|].
  apply wbind_ok in H. destruct H as ([t s1] & E1 & H). cbn [snd] in H. destruct (srule_told (@sexpr_told k) E1) as (l1 & F1 & T1). destruct (IH _ _ H) as (l2 & F2 & T2).
  exists (l1 ++ l2). rewrite F1. cbn [wbind]. rewrite E1. cbn [wbind snd]. rewrite F2. cbn [wbind]. split; [reflexivity|exact (traced_trans T1 T2)].
Qed.
End Surface.
