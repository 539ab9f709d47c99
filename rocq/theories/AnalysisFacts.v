(** Facts about the analyses of Analysis.v. *)
From Verif Require Import Base Grammar PegSpec WellFormed WfFacts WfSound WfSyntax WfTerm WfFuel Analysis.
From Coq Require Import Relations.
Set Implicit Arguments. Unset Strict Implicit.
Open Scope string_scope. Open Scope nat_scope. Open Scope list_scope.

(** ---------------- duplicates ---------------- *)
(** [l1] is obtained from [l2] by removing elements. *)
Inductive subseq (A : Type) : list A -> list A -> Prop :=
| ss_nil : subseq [] []
| ss_keep a l1 l2 : subseq l1 l2 -> subseq (a :: l1) (a :: l2)
| ss_drop a l1 l2 : subseq l1 l2 -> subseq l1 (a :: l2).

Section Dup.
Variables (A : Type) (name : A -> string).

Definition seenb (n : string) (seen : list string) : bool := existsb (fun q => String.eqb q n) seen.
Lemma seenb_in n seen : seenb n seen = true <-> In n seen.
Proof.
  unfold seenb. rewrite existsb_exists. split.
  - intros (x & I1 & E). apply String.eqb_eq in E. subst. exact I1.
  - intros I1. exists n. split; [exact I1|apply String.eqb_refl].
Qed.
Fixpoint firsts (items : list A) (seen : list string) : list A :=
  match items with
  | [] => []
  | a :: l => if seenb (name a) seen then firsts l seen else a :: firsts l (seen ++ [name a])
  end.
Fixpoint repeats (items : list A) (seen : list string) : bool :=
  match items with
  | [] => false
  | a :: l => if seenb (name a) seen then true else repeats l (seen ++ [name a])
  end.
Definition tagged (l : list A) := map (fun a => (name a, a)) l.
Lemma existsb_fst n (kept : list (string * A)) : existsb (fun q => String.eqb (fst q) n) kept = seenb n (map fst kept).
Proof. unfold seenb. induction kept as [|[k a] kept IH]; [reflexivity|]. cbn. rewrite IH. reflexivity. Qed.
Lemma populate_dup items : forall kept, populate name items kept true = (kept ++ tagged (firsts items (map fst kept)), true).
Proof.
  induction items as [|a items IH]; intros kept; cbn [populate firsts tagged map]; [rewrite app_nil_r; reflexivity|].
  rewrite existsb_fst. destruct (seenb (name a) (map fst kept)).
  - apply IH.
  - rewrite IH. rewrite map_app, <- app_assoc. reflexivity.
Qed.
Lemma populate_eq items : forall kept, populate name items kept false =
  (kept ++ tagged (firsts items (map fst kept)), repeats items (map fst kept)).
Proof.
  induction items as [|a items IH]; intros kept; cbn [populate firsts repeats tagged map]; [rewrite app_nil_r; reflexivity|].
  rewrite existsb_fst. destruct (seenb (name a) (map fst kept)).
  - apply populate_dup.
  - rewrite IH. rewrite map_app, <- app_assoc. reflexivity.
Qed.
Lemma dup_analyse_eq items : dup_analyse name items =
  if repeats items [] then Fake (tagged (firsts items [])) else Value (tagged (firsts items [])).
Proof. unfold dup_analyse. rewrite populate_eq. reflexivity. Qed.

Lemma repeats_false items : forall seen, repeats items seen = false <->
  NoDup (map name items) /\ forall n, In n seen -> ~ In n (map name items).
Proof.
  induction items as [|a items IH]; intros seen; cbn [repeats map].
  - split; [intros _; split; [constructor|auto]|reflexivity].
  - destruct (seenb (name a) seen) eqn:E.
    + split; [discriminate|]. intros [_ K]. apply seenb_in in E. exfalso. apply (K _ E). left. reflexivity.
    + rewrite IH. assert (NI : ~ In (name a) seen) by (rewrite <- seenb_in; congruence). split.
      * intros [N K]. split.
        -- constructor; [|exact N]. apply K. apply in_or_app. right. left. reflexivity.
        -- intros n I1 [<-|I2]; [contradiction|]. exact (K n ltac:(apply in_or_app; left; exact I1) I2).
      * intros [N K]. inversion N; subst. split; [assumption|]. intros n I1 I2. apply in_app_or in I1. destruct I1 as [I1|[<-|[]]].
        -- apply (K n I1). right. exact I2.
        -- contradiction.
Qed.
Lemma firsts_all items : forall seen, repeats items seen = false -> firsts items seen = items.
Proof.
  induction items as [|a items IH]; intros seen; cbn [repeats firsts]; [reflexivity|]. destruct (seenb (name a) seen); [discriminate|].
  intros H. f_equal. apply IH, H.
Qed.
Lemma firsts_subseq items : forall seen, subseq (firsts items seen) items.
Proof.
  induction items as [|a items IH]; intros seen; cbn [firsts]; [constructor|]. destruct (seenb (name a) seen); constructor; apply IH.
Qed.
Lemma firsts_nodup items : forall seen, NoDup (map name (firsts items seen)) /\ forall n, In n seen -> ~ In n (map name (firsts items seen)).
Proof.
  induction items as [|a items IH]; intros seen; cbn [firsts]; [split; [constructor|auto]|].
  destruct (seenb (name a) seen) eqn:E; [apply IH|]. assert (NI : ~ In (name a) seen) by (rewrite <- seenb_in; congruence).
  destruct (IH (seen ++ [name a])) as [N K]. cbn [map]. split.
  - constructor; [|exact N]. apply K. apply in_or_app. right. left. reflexivity.
  - intros n I1 [<-|I2]; [contradiction|]. exact (K n ltac:(apply in_or_app; left; exact I1) I2).
Qed.
Lemma firsts_first items : forall seen k, In k (firsts items seen) ->
  exists l1 l2, items = l1 ++ k :: l2 /\ ~ In (name k) (map name l1).
Proof.
  induction items as [|a items IH]; intros seen k; cbn [firsts]; [intros []|]. destruct (seenb (name a) seen) eqn:E.
  - intros I1. destruct (IH _ _ I1) as (l1 & l2 & -> & N). exists (a :: l1), l2. split; [reflexivity|].
    intros [Z|Z]; [|exact (N Z)]. apply seenb_in in E. rewrite Z in E.
    pose proof (proj2 (firsts_nodup (l1 ++ k :: l2) seen) _ E) as Q. apply Q, in_map, I1.
  - intros [->|I1]; [exists [], items; split; [reflexivity|auto]|].
    destruct (IH _ _ I1) as (l1 & l2 & -> & N). exists (a :: l1), l2. split; [reflexivity|].
    intros [Z|Z]; [|exact (N Z)]. pose proof (proj2 (firsts_nodup (l1 ++ k :: l2) (seen ++ [name a])) (name a)) as Q.
    apply Q; [apply in_or_app; right; left; reflexivity|]. apply in_map_iff. exists k. split; [symmetry; exact Z|exact I1].
Qed.
Lemma firsts_cover items : forall seen a, In a items -> In (name a) seen \/ In (name a) (map name (firsts items seen)).
Proof.
  induction items as [|b items IH]; intros seen a; cbn [firsts]; [intros []|]. intros [->|I1].
  - destruct (seenb (name a) seen) eqn:E; [left; apply seenb_in, E|right; left; reflexivity].
  - destruct (seenb (name b) seen) eqn:E; [apply IH, I1|]. destruct (IH (seen ++ [name b]) a I1) as [H|H].
    + apply in_app_or in H. destruct H as [H|[<-|[]]]; [left; exact H|right; left; reflexivity].
    + right. right. exact H.
Qed.
Lemma snd_tagged l : map snd (tagged l) = l.
Proof. unfold tagged. rewrite map_map. cbn. apply map_id. Qed.
End Dup.

(** ---------------- resolution ---------------- *)
Lemma nth_update A (l : list A) i a j : i < length l -> nth_error (update l i a) j = if j =? i then Some a else nth_error l j.
Proof.
  intros L. unfold update. assert (Lf : length (firstn i l) = i) by (rewrite firstn_length; lia). destruct (Nat.eqb_spec j i) as [->|N].
  - rewrite nth_error_app2 by lia. rewrite Lf, Nat.sub_diag. reflexivity.
  - destruct (Nat.lt_ge_cases j i) as [Q|Q].
    + rewrite nth_error_app1 by lia. rewrite <- (firstn_skipn i l) at 2. rewrite nth_error_app1 by lia. reflexivity.
    + rewrite nth_error_app2 by lia. rewrite Lf. destruct (j - i) as [|d] eqn:D; [lia|]. cbn [nth_error].
      rewrite <- (firstn_skipn (S i) l) at 2. rewrite nth_error_app2 by (rewrite firstn_length; lia). rewrite firstn_length.
      f_equal. lia.
Qed.
Lemma length_update A (l : list A) i a : i < length l -> length (update l i a) = length l.
Proof. intros L. unfold update. rewrite app_length. cbn [length]. rewrite firstn_length, skipn_length. lia. Qed.

(** Reachability through sub-expressions. *)
Inductive reaches (es : list expr) : nat -> nat -> Prop :=
| rc_self i : reaches es i i
| rc_child i e j k : nth_error es i = Some e -> In j (children e) -> reaches es j k -> reaches es i k.
(** Part of the definition of some rule. *)
Definition used (rs : list rule) (es : list expr) (i : nat) : Prop := exists r, In r rs /\ reaches es (rexpr r) i.
Definition declared (rs : list rule) (id : string) : Prop := exists r, In r rs /\ rname r = id.

Section Resolve.
Variable rs : list rule.
Notation rh := (resolve_here rs).

Lemma rh_children e : children (rh e) = children e.
Proof. destruct e; try reflexivity. destruct p as [|id [|]]; try reflexivity. cbn. destruct (existsb _ _); reflexivity. Qed.
Lemma rh_idem e : rh (rh e) = rh e.
Proof.
  destruct e; try reflexivity. destruct p as [|id [|]]; try reflexivity. cbn [resolve_here].
  destruct (existsb (fun r => String.eqb (rname r) id) rs) eqn:E; [reflexivity|]. cbn [resolve_here]. rewrite E. reflexivity.
Qed.
Lemma rh_not_ext e : (forall p, e <> EExt p) -> rh e = e.
Proof. destruct e; try reflexivity. intros H. exfalso. eapply H. reflexivity. Qed.
Lemma declared_b id : existsb (fun r => String.eqb (rname r) id) rs = true <-> declared rs id.
Proof.
  rewrite existsb_exists. unfold declared. split; intros (r & I1 & E); exists r; (split; [exact I1|]); [apply String.eqb_eq, E|subst; apply String.eqb_refl].
Qed.

Definition res_on (D : nat -> Prop) (es es' : list expr) : Prop :=
  length es' = length es /\
  (forall j, D j -> nth_error es' j = option_map rh (nth_error es j)) /\
  (forall j, nth_error es' j = nth_error es j \/ (D j /\ nth_error es' j = option_map rh (nth_error es j))).

Lemma res_kids D es es' : res_on D es es' -> forall j, option_map children (nth_error es' j) = option_map children (nth_error es j).
Proof.
  intros (_ & _ & K) j. destruct (K j) as [->|[_ ->]]; [reflexivity|]. destruct (nth_error es j); [cbn; rewrite rh_children|]; reflexivity.
Qed.
Lemma reaches_same es es' i j : (forall j, option_map children (nth_error es' j) = option_map children (nth_error es j)) ->
  reaches es i j -> reaches es' i j.
Proof.
  intros K. induction 1 as [|i e j k E I1 R IH]; [constructor|]. specialize (K i). rewrite E in K. cbn in K.
  destruct (nth_error es' i) as [e'|] eqn:E'; [|discriminate]. injection K as K. eapply rc_child; [exact E'| |exact IH]. rewrite K. exact I1.
Qed.
Lemma reaches_res D es es' i j : res_on D es es' -> reaches es i j <-> reaches es' i j.
Proof. intros H. split; apply reaches_same; intros q; [|symmetry]; apply (res_kids H). Qed.

Lemma res_id es : res_on (fun _ => False) es es.
Proof. split; [reflexivity|]. split; [intros j []|]. intros j. left. reflexivity. Qed.
Lemma res_weak D D' es es' : (forall j, D j <-> D' j) -> res_on D es es' -> res_on D' es es'.
Proof.
  intros H (L & A & B). split; [exact L|]. split; [intros j Hj; apply A, H, Hj|]. intros j. destruct (B j) as [E|[Hj E]]; [left; exact E|right].
  split; [apply H, Hj|exact E].
Qed.
Lemma res_comp D1 D2 es es1 es2 : res_on D1 es es1 -> res_on D2 es1 es2 -> res_on (fun j => D1 j \/ D2 j) es es2.
Proof.
  intros (L1 & A1 & B1) (L2 & A2 & B2).
  assert (RH : forall o : option expr, option_map rh (option_map rh o) = option_map rh o) by (intros [e|]; cbn; [rewrite rh_idem|]; reflexivity).
  split; [congruence|]. split.
  - intros j [H|H].
    + specialize (A1 j H). destruct (B2 j) as [->|[_ ->]]; [exact A1|]. rewrite A1. apply RH.
    + rewrite (A2 j H). destruct (B1 j) as [->|[_ ->]]; [reflexivity|]. apply RH.
  - intros j. destruct (B1 j) as [E1|[H1 E1]], (B2 j) as [E2|[H2 E2]]; rewrite E2, E1; [left; reflexivity|right; auto|right; auto|right; split; [auto|apply RH]].
Qed.

Definition ordered (es : list expr) : Prop := forall i e, nth_error es i = Some e -> Forall (fun j => j < i) (children e).
Lemma ordered_res D es es' : res_on D es es' -> ordered es -> ordered es'.
Proof.
  intros H O i e E. pose proof (res_kids H i) as K. rewrite E in K. cbn in K. destruct (nth_error es i) as [e0|] eqn:E0; [|discriminate].
  injection K as K. rewrite K. exact (O i e0 E0).
Qed.

Lemma resolve_expr_ok fuel : forall i es, ordered es -> i < length es -> i < fuel ->
  exists es', resolve_expr fuel rs i es = WOk es' /\ res_on (reaches es i) es es'.
Proof.
  induction fuel as [|k IH]; intros i es O L F; [lia|]. cbn [resolve_expr].
  destruct (nth_error es i) as [e|] eqn:E; [|apply nth_error_None in E; lia].
  assert (GO : (forall p, e <> EExt p) -> exists es', (fix go (l : list nat) (es : list expr) : wres (list expr) :=
                match l with [] => WOk es | j :: l' => wbind (resolve_expr k rs j es) (go l') end) (children e) es = WOk es'
                /\ res_on (reaches es i) es es').
  { intros NE. pose proof (O i e E) as Fo.
    assert (W : forall l es0 D, Forall (fun j => j < i) l -> res_on D es es0 -> exists es',
      (fix go (l : list nat) (es : list expr) : wres (list expr) :=
                match l with [] => WOk es | j :: l' => wbind (resolve_expr k rs j es) (go l') end) l es0 = WOk es'
      /\ res_on (fun q => D q \/ exists j, In j l /\ reaches es j q) es es').
    { induction l as [|j l IHl]; intros es0 D Fl R.
      - exists es0. split; [reflexivity|]. eapply res_weak; [|exact R]. intros q. split; [auto|]. intros [H|(j & [] & _)]. exact H.
      - inversion Fl; subst. destruct (IH j es0) as (es1 & E1 & R1).
        { exact (ordered_res R O). } { destruct R as [-> _]. lia. } { lia. }
        rewrite E1. cbn [wbind].
        assert (R1' : res_on (reaches es j) es0 es1).
        { eapply res_weak; [|exact R1]. intros q. symmetry. apply (reaches_res _ _ R). }
        destruct (IHl es1 (fun q => D q \/ reaches es j q)) as (es2 & E2 & R2); [assumption|exact (res_comp R R1')|].
        exists es2. split; [exact E2|]. eapply res_weak; [|exact R2]. intros q. cbn [In]. split.
        + intros [[H|H]|(j' & I1 & H)]; [auto|right; exists j; auto|right; exists j'; auto].
        + intros [H|(j' & [<-|I1] & H)]; [auto|auto|right; exists j'; auto]. }
    destruct (W (children e) es (fun _ => False) Fo (res_id es)) as (es' & E' & R). exists es'. split; [exact E'|].
    assert (R2 : res_on (fun q => q = i) es es).
    { split; [reflexivity|]. split; [|intros j; left; reflexivity]. intros j ->. rewrite E. cbn. rewrite (rh_not_ext NE). reflexivity. }
    eapply res_weak; [|exact (res_comp R2 R)]. intros q. split.
    - intros [->|[[]|(j & I1 & H)]]; [constructor|]. eapply rc_child; eassumption.
    - intros H. inversion H; subst; [auto|]. right. right. match goal with H : nth_error es i = Some ?e0 |- _ => assert (e0 = e) as -> by congruence end. eauto. }
  destruct e; try (apply GO; intros ? ?; discriminate).
  exists (update es i (rh (EExt p))). split; [reflexivity|]. assert (Rq : forall q, reaches es i q <-> q = i).
  { intros q. split; [|intros ->; constructor]. intros H. inversion H; subst; [reflexivity|].
    match goal with H : nth_error es i = Some ?e0 |- _ => assert (e0 = EExt p) as -> by congruence end. match goal with H : In _ _ |- _ => destruct H end. }
  split; [apply length_update; exact L|]. split.
  - intros j Hj. apply Rq in Hj. subst j. rewrite nth_update by exact L. rewrite Nat.eqb_refl, E. reflexivity.
  - intros j. rewrite nth_update by exact L. destruct (Nat.eqb_spec j i) as [->|N]; [right; split; [constructor|rewrite E; reflexivity]|left; reflexivity].
Qed.

Lemma resolve_from_ok fuel idx : forall es, ordered es -> Forall (fun i => i < length es) idx -> length es <= fuel ->
  exists es', resolve_from fuel rs idx es = WOk es' /\ res_on (fun q => exists i, In i idx /\ reaches es i q) es es'.
Proof.
  induction idx as [|i idx IH]; intros es O Fo F; cbn [resolve_from].
  - exists es. split; [reflexivity|]. eapply res_weak; [|apply res_id]. intros q. split; [intros []|intros (i & [] & _)].
  - inversion Fo; subst. destruct (@resolve_expr_ok fuel i es O ltac:(assumption) ltac:(lia)) as (es1 & E1 & R1). rewrite E1. cbn [wbind].
    destruct (IH es1 (ordered_res R1 O)) as (es2 & E2 & R2); [destruct R1 as [-> _]; assumption|destruct R1 as [-> _]; exact F|].
    exists es2. split; [exact E2|]. eapply res_weak; [|exact (res_comp R1 R2)]. intros q. cbn [In]. split.
    + intros [H|(j & I1 & H)]; [exists i; auto|exists j; split; [auto|]]. apply (reaches_res _ _ R1), H.
    + intros (j & [<-|I1] & H); [auto|right; exists j; split; [auto|]]. apply (reaches_res _ _ R1), H.
Qed.
Lemma resolve_ok fuel es : ordered es -> (forall r, In r rs -> rexpr r < length es) -> length es <= fuel ->
  exists es', resolve fuel rs es = WOk es' /\ res_on (used rs es) es es'.
Proof.
  intros O Hr F. destruct (@resolve_from_ok fuel (map rexpr rs) es O) as (es' & E & R); [|exact F|].
  { apply Forall_forall. intros i I1. apply in_map_iff in I1. destruct I1 as (r & <- & I1). exact (Hr r I1). }
  exists es'. split; [exact E|]. eapply res_weak; [|exact R]. intros q. unfold used. split.
  - intros (i & I1 & H). apply in_map_iff in I1. destruct I1 as (r & <- & I1). exists r. auto.
  - intros (r & I1 & H). exists (rexpr r). split; [apply in_map, I1|exact H].
Qed.
End Resolve.
