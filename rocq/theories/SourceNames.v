(** The criteria of RustcRefs.v (parameters of type [&mut]), RustcMoves.v (moves) and ScopeExact.v (names)
    on the syntax trees: what they say of a rule can be read off the source. *)
From Verif Require Import Base Grammar PegSpec Target Compile CompileShape ScopeGen GenTotal FrontSpec FrontRound TreeSpec TreeFacts Literals RustcRefs RustcMoves ScopeExact.
Set Implicit Arguments. Unset Strict Implicit.

(** ---------------- the criteria ---------------- *)
Section Criteria.
(** The expressions without value. *)
Variable void : tree -> bool.
(** An expression without value is compiled as a recognizer, with all its operands. *)
Definition t_mode (m : mode) (t : tree) : mode :=
  match m with Rec => Rec | Par => if void t then Rec else Par end.
(** The expressions whose value the parser builds. *)
Definition t_has (m : mode) (t : tree) : bool := match m with Rec => false | Par => negb (void t) end.

(** Of the place of an expression: [p]: something of the same scope follows; [h]: the scope has mutable variables (the
    flags of the choices around, the value of an option, a list under construction); [st]: what follows uses one of them.
    [v_reaches]: the expression with what follows uses one of them. *)
Fixpoint v_reaches (m : mode) (p h st : bool) (t : tree) : bool :=
  match t, t_mode m t with
  | (XStr _ | XAny | XClass _ _ _ | XCall _), _ => st
  | XSeq l, m => seq_reaches (v_reaches m) p h st l
  | XAlt l, m => existsb (v_reaches m false h (if p then h else st)) l
  | (XOpt t | XStar t | XPlus t), Rec | (XNot t | XAnd t), _ => v_reaches Rec p h false t || st
  | (XOpt _ | XStar _ | XPlus _), Par => st
  | XAct t _ _, Rec => v_reaches Rec p h st t
  | XAct t _ _, Par => v_reaches Par false false st t
  | (XAsc t _ | XSpan t), m => v_reaches m p h st t
  | XRange t, _ => v_reaches Rec p h st t
  end.
(** No closure made for a choice uses its [&mut] parameters. *)
Fixpoint v_fits (m : mode) (p h st : bool) (t : tree) : bool :=
  match t, t_mode m t with
  | (XStr _ | XAny | XClass _ _ _ | XCall _), _ => true
  | XSeq l, m => seq_fits (v_reaches m) (v_fits m) p h st l
  | XAlt l, m => negb (p && st) && alt_fits (v_fits m) h (if p then h else st) l
  | (XOpt t | XStar t | XPlus t), Rec | (XNot t | XAnd t), _ => v_fits Rec p h false t
  | XOpt t, Par => v_fits Par false true true t
  | (XStar t | XPlus t), Par => v_fits Par false true false t
  | XAct t _ _, Rec => v_fits Rec p h st t
  | XAct t _ _, Par => v_fits Par false false false t
  | (XAsc t _ | XSpan t), m => v_fits m p h st t
  | XRange t, _ => v_fits Rec p h st t
  end.
(** No closure made for a choice uses a name of a scope that an action has left; [lv]: the scope has values to the left of
    the expression; [hid]: what follows uses names of an enclosing scope. *)
Fixpoint v_sees (m : mode) (p h st lv hid : bool) (t : tree) : bool :=
  match t, t_mode m t with
  | (XStr _ | XAny | XClass _ _ _ | XCall _), _ => true
  | XSeq l, m => seq_sees (t_has m) (v_reaches m) (v_sees m) p h st lv hid l
  | XAlt l, m => negb (p && hid) && alt_sees (v_sees m) h (if p then h else st) lv (if p then false else hid) l
  | (XOpt t | XStar t | XPlus t), Rec | (XNot t | XAnd t), _ => v_sees Rec p h false lv false t
  | (XOpt t | XStar t | XPlus t), Par => v_sees Par false true true false false t
  | XAct t _ _, Rec => v_sees Rec p h st lv hid t
  | XAct t _ _, Par => v_sees Par false false false false (hid || st || lv) t
  | (XAsc t _ | XSpan t), m => v_sees m p h st lv hid t
  | XRange t, _ => v_sees Rec p h st lv hid t
  end.

(** The parser of a rule. *)
Definition names_fit (t : tree) : bool := if void t then true else v_sees Par false false false false false t.
Definition params_fit (t : tree) : bool := if void t then true else v_fits Par false false false t.
End Criteria.

(** ---------------- the arena and the source ---------------- *)
Section Arena.
Variables (G : grammar) (rs : list (string * tree)) (void : tree -> bool) (asked : nat -> Prop).
Hypothesis DOWN : forall i e, asked i -> expr_of G i = Some e -> is_unit G i = false -> Forall asked (children e).
Hypothesis LOW : forall i e, expr_of G i = Some e -> Forall (fun j => j < i) (children e).
Hypothesis VOID : forall i t, asked i -> stored G rs i t -> is_unit G i = void t.
Hypothesis RANGE : forall i u, asked i -> is_unit G i = false -> expr_of G i = Some (ERange u) -> is_unit G u = true.
Hypothesis CARD : forall i, asked i -> (0 <? card G i) = negb (is_unit G i).

Definition ok (m : mode) (i : nat) : Prop := m = Par -> asked i.
Lemma mode_same m i t : ok m i -> stored G rs i t -> mode_at G m i = t_mode void m t.
Proof. destruct m; [reflexivity|]. intros A S0. cbn. rewrite (VOID (A eq_refl) S0). reflexivity. Qed.
Lemma ok_down m i e : ok m i -> expr_of G i = Some e -> Forall (fun j => ok (mode_at G m i) j /\ j < i) (children e).
Proof.
  intros A Ee. pose proof (LOW Ee) as L. rewrite Forall_forall in L |- *. intros j Ij. split; [|exact (L j Ij)]. intros Q.
  destruct m; [discriminate Q|]. cbn in Q. destruct (is_unit G i) eqn:U; [discriminate|]. pose proof (DOWN (A eq_refl) Ee U) as D. rewrite Forall_forall in D. exact (D j Ij).
Qed.
Lemma ok_rec i : ok Rec i. Proof. intros Q. discriminate. Qed.
Lemma range_mode m i u : ok m i -> expr_of G i = Some (ERange u) -> mode_at G (mode_at G m i) u = Rec.
Proof.
  intros A Ee. destruct m; [reflexivity|]. cbn. destruct (is_unit G i) eqn:U; [reflexivity|]. cbn. rewrite (RANGE (A eq_refl) U Ee). reflexivity.
Qed.
Lemma has_same m i t : ok m i -> stored G rs i t -> (0 <? ncard G m i) = t_has void m t.
Proof. intros A S0. destruct m; [reflexivity|]. cbn [ncard t_has]. rewrite (CARD (A eq_refl)), (VOID (A eq_refl) S0). reflexivity. Qed.

Ltac start A S0 n M OD := pose proof (mode_same A S0) as M; inversion S0; subst;
  match goal with Ee : expr_of G ?i = Some _ , A : ok _ ?i |- _ => pose proof (ok_down A Ee) as OD; cbn [children] in OD end.

Lemma reaches_same : forall t i fuel m p h st, ok m i -> stored G rs i t -> i < fuel -> reaches G fuel m p h st i = v_reaches void m p h st t.
Proof.
  assert (ALL : forall l, Forall (fun t => forall i fuel m p h st, ok m i -> stored G rs i t -> i < fuel -> reaches G fuel m p h st i = v_reaches void m p h st t) l ->
     forall js m i n, Forall2 (stored G rs) js l -> Forall (fun j => ok m j /\ j < i) js -> i <= n ->
       (forall p h st, seq_reaches (reaches G n m) p h st js = seq_reaches (v_reaches void m) p h st l) /\
       (forall p h st, existsb (reaches G n m p h st) js = existsb (v_reaches void m p h st) l)).
  { induction 1 as [|t l Ht HF IH]; intros js m i n F2 LT Le; inversion F2 as [|j ? js' ? S0 F2' ]; subst; [auto|].
    inversion LT as [|? ? [Aj Lj] LT']; subst. destruct (IH _ _ _ _ F2' LT' Le) as [A B]. split; intros p h st.
    - cbn [seq_reaches]. inversion F2' as [|j' ? ? ? S1 F3]; subst; [apply Ht; [exact Aj|exact S0|lia]|]. rewrite A. apply Ht; [exact Aj|exact S0|lia].
    - cbn [existsb]. rewrite B, (Ht j n) by (auto; lia). reflexivity. }
  induction t as [s| |a b c|q|l IHl|l IHl|t IH|t IH|t IH|t IH|t IH|t b q IH|t ty IH|t IH|t IH] using tree_ind';
    intros i [|n] m p h st A0 S0 L0; [lia| |lia| |lia| |lia| |lia| |lia| |lia| |lia| |lia| |lia| |lia| |lia| |lia| |lia| |lia| ]; start A0 S0 n M OD;
    cbn [reaches v_reaches]; match goal with E : expr_of G i = Some _ |- _ => rewrite E end; try reflexivity; rewrite <- ?M; try (apply Forall_inv in OD; destruct OD as [OJ LJ]).
  - match goal with F : Forall2 _ _ _ |- _ => destruct (ALL l IHl _ _ i n F OD ltac:(lia)) as [A B] end. rewrite A. destruct (mode_at G m i); reflexivity.
  - match goal with F : Forall2 _ _ _ |- _ => destruct (ALL l IHl _ _ i n F OD ltac:(lia)) as [A B] end. rewrite B. destruct (mode_at G m i); reflexivity.
  - destruct (mode_at G m i); [|reflexivity]. rewrite (IH j n) by (auto using ok_rec; lia). reflexivity.
  - destruct (mode_at G m i); [|reflexivity]. rewrite (IH j n) by (auto using ok_rec; lia). reflexivity.
  - destruct (mode_at G m i); [|reflexivity]. rewrite (IH j n) by (auto using ok_rec; lia). reflexivity.
  - destruct (mode_at G m i); rewrite (IH j n) by (auto using ok_rec; lia); reflexivity.
  - destruct (mode_at G m i); rewrite (IH j n) by (auto using ok_rec; lia); reflexivity.
  - destruct (mode_at G m i); rewrite (IH j n) by (auto using ok_rec; lia); reflexivity.
  - destruct (mode_at G m i); rewrite (IH j n) by (auto using ok_rec; lia); reflexivity.
  - destruct (mode_at G m i); rewrite (IH j n) by (auto using ok_rec; lia); reflexivity.
  - assert (RM : mode_at G (mode_at G m i) u = Rec) by (eapply range_mode; eassumption). match goal with E : expr_of G u = Some _ |- _ => pose proof (LOW E) as L2; rename E into Eu end. cbn [children] in L2. apply Forall_inv in L2.
    destruct n as [|n]; [lia|]. assert (K : forall m', m' = mode_at G m i -> reaches G (S n) m' p h st u = v_reaches void Rec p h st t).
    { intros m' ->. cbn [reaches]. rewrite Eu, RM. apply IH; [apply ok_rec|assumption|lia]. }
    destruct (mode_at G m i); apply K; reflexivity.
Qed.

Lemma fits_same : forall t i fuel m p h st, ok m i -> stored G rs i t -> i < fuel -> fits G fuel m p h st i = v_fits void m p h st t.
Proof.
  assert (ALL : forall l, Forall (fun t => forall i fuel m p h st, ok m i -> stored G rs i t -> i < fuel -> fits G fuel m p h st i = v_fits void m p h st t) l ->
     forall js m i n, Forall2 (stored G rs) js l -> Forall (fun j => ok m j /\ j < i) js -> i <= n ->
       (forall p h st, seq_reaches (reaches G n m) p h st js = seq_reaches (v_reaches void m) p h st l) /\
       (forall p h st, seq_fits (reaches G n m) (fits G n m) p h st js = seq_fits (v_reaches void m) (v_fits void m) p h st l) /\
       (forall h st, alt_fits (fits G n m) h st js = alt_fits (v_fits void m) h st l)).
  { induction 1 as [|t l Ht HF IH]; intros js m i n F2 LT Le; inversion F2 as [|j ? js' ? S0 F2' ]; subst; [auto|].
    inversion LT as [|? ? [Aj Lj] LT']; subst. destruct (IH _ _ _ _ F2' LT' Le) as (A & B & C). assert (Ln : j < n) by lia. split; [|split]; intros.
    - cbn [seq_reaches]. inversion F2' as [|j' ? ? ? S1 F3]; subst; [|rewrite A]; apply reaches_same; assumption.
    - cbn [seq_fits]. inversion F2' as [|j' ? ? ? S1 F3]; subst; [apply Ht; assumption|]. rewrite A, B, (Ht j n) by assumption. reflexivity.
    - cbn [alt_fits]. inversion F2' as [|j' ? ? ? S1 F3]; subst; [apply Ht; assumption|]. rewrite C, (Ht j n) by assumption. reflexivity. }
  induction t as [s| |a b c|q|l IHl|l IHl|t IH|t IH|t IH|t IH|t IH|t b q IH|t ty IH|t IH|t IH] using tree_ind';
    intros i [|n] m p h st A0 S0 L0; [lia| |lia| |lia| |lia| |lia| |lia| |lia| |lia| |lia| |lia| |lia| |lia| |lia| |lia| |lia| ]; start A0 S0 n M OD;
    cbn [fits v_fits]; match goal with E : expr_of G i = Some _ |- _ => rewrite E end; try reflexivity; rewrite <- ?M; try (apply Forall_inv in OD; destruct OD as [OJ LJ]).
  - match goal with F : Forall2 _ _ _ |- _ => destruct (ALL l IHl _ _ i n F OD ltac:(lia)) as (A & B & C) end. rewrite B. destruct (mode_at G m i); reflexivity.
  - match goal with F : Forall2 _ _ _ |- _ => destruct (ALL l IHl _ _ i n F OD ltac:(lia)) as (A & B & C) end. rewrite C. destruct (mode_at G m i); reflexivity.
  - destruct (mode_at G m i); rewrite (IH j n) by (auto using ok_rec; lia); reflexivity.
  - destruct (mode_at G m i); rewrite (IH j n) by (auto using ok_rec; lia); reflexivity.
  - destruct (mode_at G m i); rewrite (IH j n) by (auto using ok_rec; lia); reflexivity.
  - destruct (mode_at G m i); rewrite (IH j n) by (auto using ok_rec; lia); reflexivity.
  - destruct (mode_at G m i); rewrite (IH j n) by (auto using ok_rec; lia); reflexivity.
  - destruct (mode_at G m i); rewrite (IH j n) by (auto using ok_rec; lia); reflexivity.
  - destruct (mode_at G m i); rewrite (IH j n) by (auto using ok_rec; lia); reflexivity.
  - destruct (mode_at G m i); rewrite (IH j n) by (auto using ok_rec; lia); reflexivity.
  - assert (RM : mode_at G (mode_at G m i) u = Rec) by (eapply range_mode; eassumption). match goal with E : expr_of G u = Some _ |- _ => pose proof (LOW E) as L2; rename E into Eu end. cbn [children] in L2. apply Forall_inv in L2.
    destruct n as [|n]; [lia|]. assert (K : forall m', m' = mode_at G m i -> fits G (S n) m' p h st u = v_fits void Rec p h st t).
    { intros m' ->. cbn [fits]. rewrite Eu, RM. apply IH; [apply ok_rec|assumption|lia]. }
    destruct (mode_at G m i); apply K; reflexivity.
Qed.

Lemma sees_same : forall t i fuel m p h st lv hid, ok m i -> stored G rs i t -> i < fuel -> sees G fuel m p h st lv hid i = v_sees void m p h st lv hid t.
Proof.
  assert (ALL : forall l, Forall (fun t => forall i fuel m p h st lv hid, ok m i -> stored G rs i t -> i < fuel -> sees G fuel m p h st lv hid i = v_sees void m p h st lv hid t) l ->
     forall js m i n, Forall2 (stored G rs) js l -> Forall (fun j => ok m j /\ j < i) js -> i <= n ->
       (forall p h st, seq_reaches (reaches G n m) p h st js = seq_reaches (v_reaches void m) p h st l) /\
       (forall p h st lv hid, seq_sees (fun j => 0 <? ncard G m j) (reaches G n m) (sees G n m) p h st lv hid js = seq_sees (t_has void m) (v_reaches void m) (v_sees void m) p h st lv hid l) /\
       (forall h st lv hid, alt_sees (sees G n m) h st lv hid js = alt_sees (v_sees void m) h st lv hid l)).
  { induction 1 as [|t l Ht HF IH]; intros js m i n F2 LT Le; inversion F2 as [|j ? js' ? S0 F2' ]; subst; [auto|].
    inversion LT as [|? ? [Aj Lj] LT']; subst. destruct (IH _ _ _ _ F2' LT' Le) as (A & B & C). assert (Ln : j < n) by lia. split; [|split]; intros.
    - cbn [seq_reaches]. inversion F2' as [|j' ? ? ? S1 F3]; subst; [|rewrite A]; apply reaches_same; assumption.
    - cbn [seq_sees]. inversion F2' as [|j' ? ? ? S1 F3]; subst; [apply Ht; assumption|]. rewrite !A, B, (Ht j n), (has_same Aj S0) by assumption. reflexivity.
    - cbn [alt_sees]. inversion F2' as [|j' ? ? ? S1 F3]; subst; [apply Ht; assumption|]. rewrite C, (Ht j n) by assumption. reflexivity. }
  induction t as [s| |a b c|q|l IHl|l IHl|t IH|t IH|t IH|t IH|t IH|t b q IH|t ty IH|t IH|t IH] using tree_ind';
    intros i [|n] m p h st lv hid A0 S0 L0; [lia| |lia| |lia| |lia| |lia| |lia| |lia| |lia| |lia| |lia| |lia| |lia| |lia| |lia| |lia| ]; start A0 S0 n M OD;
    cbn [sees v_sees]; match goal with E : expr_of G i = Some _ |- _ => rewrite E end; try reflexivity; rewrite <- ?M; try (apply Forall_inv in OD; destruct OD as [OJ LJ]).
  - match goal with F : Forall2 _ _ _ |- _ => destruct (ALL l IHl _ _ i n F OD ltac:(lia)) as (A & B & C) end. rewrite B. destruct (mode_at G m i); reflexivity.
  - match goal with F : Forall2 _ _ _ |- _ => destruct (ALL l IHl _ _ i n F OD ltac:(lia)) as (A & B & C) end. rewrite C. destruct (mode_at G m i); reflexivity.
  - destruct (mode_at G m i); rewrite (IH j n) by (auto using ok_rec; lia); reflexivity.
  - destruct (mode_at G m i); rewrite (IH j n) by (auto using ok_rec; lia); reflexivity.
  - destruct (mode_at G m i); rewrite (IH j n) by (auto using ok_rec; lia); reflexivity.
  - destruct (mode_at G m i); rewrite (IH j n) by (auto using ok_rec; lia); reflexivity.
  - destruct (mode_at G m i); rewrite (IH j n) by (auto using ok_rec; lia); reflexivity.
  - destruct (mode_at G m i); rewrite (IH j n) by (auto using ok_rec; lia); reflexivity.
  - destruct (mode_at G m i); rewrite (IH j n) by (auto using ok_rec; lia); reflexivity.
  - destruct (mode_at G m i); rewrite (IH j n) by (auto using ok_rec; lia); reflexivity.
  - assert (RM : mode_at G (mode_at G m i) u = Rec) by (eapply range_mode; eassumption). match goal with E : expr_of G u = Some _ |- _ => pose proof (LOW E) as L2; rename E into Eu end. cbn [children] in L2. apply Forall_inv in L2.
    destruct n as [|n]; [lia|]. assert (K : forall m', m' = mode_at G m i -> sees G (S n) m' p h st lv hid u = v_sees void Rec p h st lv hid t).
    { intros m' ->. cbn [sees]. rewrite Eu, RM. apply IH; [apply ok_rec|assumption|lia]. }
    destruct (mode_at G m i); apply K; reflexivity.
Qed.

Lemma names_same i t : asked i -> stored G rs i t -> i < gen_fuel G -> (if is_unit G i then true else sees G (gen_fuel G) Par false false false false false i) = names_fit void t.
Proof. intros A S0 L. unfold names_fit. rewrite (VOID A S0). destruct (void t); [reflexivity|]. apply sees_same; [intros _; exact A|exact S0|exact L]. Qed.
Lemma params_same i t : asked i -> stored G rs i t -> i < gen_fuel G -> (if is_unit G i then true else fits G (gen_fuel G) Par false false false i) = params_fit void t.
Proof. intros A S0 L. unfold params_fit. rewrite (VOID A S0). destruct (void t); [reflexivity|]. apply fits_same; [intros _; exact A|exact S0|exact L]. Qed.
End Arena.
