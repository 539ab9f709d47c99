(** The kinds of expressions in the arena, and type inference: which expressions are left without a value. *)
From Verif Require Import Base Grammar WellFormed Analysis AnalysisFacts Typing TypeRules SurfaceFacts RefFacts DepthFacts TypingSound TypingFit FrontSpec TreeSpec TreeKinds.
Set Implicit Arguments. Unset Strict Implicit.
Open Scope string_scope. Open Scope nat_scope. Open Scope list_scope.

(** ---------------- kinds of types ---------------- *)
Definition cls (t : ity) : option kind :=
  match t with
  | IInvisible => Some KInv | IRegular TUnit => Some KUnit | IExternal => Some KForeign | IRegular (TRust _) => Some KRust | IRegular (TTuple _) => Some KTuple | IRegular _ => Some KData
  | IInfer | IRec _ => None
  end.
Lemma cls_settled t : settledb t = true <-> exists k, cls t = Some k.
Proof. destruct t as [| | | |[]]; cbn; split; intros H; eauto; try discriminate H; destruct H; discriminate. Qed.
Lemma cls_unit t k : cls t = Some k -> is_unit_kind t = voidb k.
Proof. destruct t as [| | | |[]]; cbn; intros H; try discriminate H; injection H as <-; reflexivity. Qed.
Lemma cls_same T a b : same T a b -> cls a = cls b.
Proof. intros H. inversion H; reflexivity. Qed.
Lemma cls_value t k : cls t = Some k -> is_value_type t = true -> voidb k = false.
Proof. destruct t as [| | | |[]]; cbn; intros H; try discriminate H; injection H as <-; intros; try discriminate; reflexivity. Qed.

(** The node [c] has a type of kind [k]. *)
Definition at_kind (T : list ity) (c : nat) (k : kind) : Prop := exists u, nth_error T c = Some u /\ cls u = Some k.
Lemma at_typed T c k : at_kind T c k -> typed T c.
Proof. intros (u & Eu & C). exists u. split; [exact Eu|]. destruct u; cbn in C; try discriminate C; (split; [discriminate|reflexivity]). Qed.

Lemma seq_kinds T l ks t : flat T -> l <> [] -> Forall2 (at_kind T) l ks -> reduce_tuple T l = WOk t -> cls t = Some (seq_kind ks).
Proof.
  intros FL NE F H. rewrite reduce_tuple_spec in H; [|exact FL|exact NE|].
  2:{ clear - F. induction F; constructor; eauto using at_typed. }
  assert (IV : forallb (invisible_at T) l = forallb invb ks).
  { clear - F. induction F as [|c k l ks (u & Eu & C) F IH]; [reflexivity|]. cbn [forallb]. rewrite IH. f_equal. unfold invisible_at. rewrite Eu.
    destruct u as [| | | |[]]; cbn in C; try discriminate C; injection C as <-; reflexivity. }
  unfold seq_kind. rewrite IV in H.
  assert (V : match filter (fun k => negb (voidb k)) ks with
    | [] => flat_map (contrib T) l = []
    | [k] => (exists j, flat_map (contrib T) l = [j] /\ at_kind T j k) \/ (k = KTuple /\ 2 <= length (flat_map (contrib T) l))
    | _ => 2 <= length (flat_map (contrib T) l) end).
  { clear - F FL. induction F as [|c k l ks (u & Eu & C) F IH]; [reflexivity|]. cbn [filter flat_map].
    assert (D : (voidb k = true /\ contrib T c = []) \/ (voidb k = false /\ contrib T c = [c]) \/ (k = KTuple /\ voidb k = false /\ 2 <= length (contrib T c))).
    { unfold contrib. rewrite Eu. destruct u as [| | | |[| |j|j|js|s]]; cbn in C; try discriminate C; injection C as <-; cbn; auto.
      right. right. split; [reflexivity|]. split; [reflexivity|]. exact (proj1 (FL _ _ Eu)). }
    destruct D as [[-> ->]|[[-> ->]|(-> & _ & L2)]]; cbn [negb]; [exact IH| |].
    - destruct (filter _ ks) as [|k1 [|k2 r]].
      + rewrite IH. cbn. left. exists c. split; [reflexivity|]. exists u. auto.
      + cbn [app length]. destruct IH as [(j & -> & _)|[_ IH]]; cbn; lia.
      + cbn [app length]. lia.
    - cbn. rewrite app_length. destruct (filter _ ks) as [|k1 [|k2 r]].
      + right. split; [reflexivity|]. lia.
      + lia.
      + lia. }
  destruct (forallb invb ks) eqn:FI.
  - assert (filter (fun k => negb (voidb k)) ks = []) as Q.
    { clear - FI. induction ks as [|k ks IH]; [reflexivity|]. cbn in FI |- *. apply andb_prop in FI. destruct FI as [A B]. destruct k; try discriminate A. cbn. auto. }
    rewrite Q in V. rewrite V in H. injection H as <-. reflexivity.
  - destruct (filter _ ks) as [|k1 [|k2 r]].
    + rewrite V in H. injection H as <-. reflexivity.
    + destruct V as [(j & EJ & u & Eu & C)|[-> L2]].
      * rewrite EJ in H. rewrite (tget_some Eu) in H. injection H as <-. exact C.
      * destruct (flat_map (contrib T) l) as [|a [|b js]]; cbn in L2; try lia. injection H as <-. reflexivity.
    + destruct (flat_map (contrib T) l) as [|a [|b js]]; cbn in V; try lia. injection H as <-. reflexivity.
Qed.
Lemma span_kinds T sp c k s t : flat T -> nth_error T sp = Some (IRegular (TRust s)) -> at_kind T c k -> reduce_tuple T [sp; c] = WOk t -> cls t = Some (span_kind k).
Proof.
  intros FL ES A H. assert (F : Forall2 (at_kind T) [sp; c] [KRust; k]) by (constructor; [exists (IRegular (TRust s)); auto|constructor; [exact A|constructor]]).
  assert (NE : [sp; c] <> []) by discriminate. rewrite (seq_kinds FL NE F H). reflexivity.
Qed.
Lemma EX1 (p : kind -> bool) k0 ks : p k0 = true -> (forall k, p k = true -> k = k0) -> (existsb p ks = true <-> In k0 ks).
Proof. intros P Q. rewrite existsb_exists; split; [intros (k & I & D); rewrite <- (Q k D); exact I|intros I; exists k0; auto]. Qed.
Lemma EXT ks : existsb tupleb ks = true <-> In KTuple ks.
Proof. apply EX1; [reflexivity|]. intros []; try discriminate; reflexivity. Qed.
Lemma EXD ks : existsb datab ks = true <-> In KData ks.
Proof. apply EX1; [reflexivity|]. intros []; try discriminate; reflexivity. Qed.
Lemma EXR ks : existsb rustb ks = true <-> In KRust ks.
Proof. apply EX1; [reflexivity|]. intros []; try discriminate; reflexivity. Qed.
Lemma EXI ks : existsb invb ks = true <-> In KInv ks.
Proof. rewrite existsb_exists; split; [intros (k & I & D); destruct k; try discriminate D; exact I|intros I; exists KInv; auto]. Qed.
Lemma alt_kinds T fuel ts ks t : Forall2 (fun u k => cls u = Some k) ts ks -> reduce_sum T fuel ts = WOk (Some t) -> cls t = Some (alt_kind ks).
Proof.
  intros F H. assert (NE : ts <> []) by (intros ->; discriminate). apply reduce_sum_spec in H. destruct H as [_ CT].
  assert (NR : non_rec ts = ts).
  { clear - F. induction F as [|u k ts ks C F IH]; [reflexivity|]. unfold non_rec in *. cbn [filter]. rewrite IH. destruct u; cbn in C; try discriminate C; reflexivity. }
  assert (INV : forall k0, (exists u, In u ts /\ cls u = Some k0) <-> In k0 ks).
  { clear - F. intros k0. induction F as [|u k ts ks C F IH]; [split; [intros (? & [] & _)|intros []]|]. split.
    - intros (v & [<-|I] & Q); [left; congruence|right; apply IH; eauto].
    - intros [<-|I]; [exists u; cbn; auto|]. apply IH in I. destruct I as (v & I & Q). exists v. cbn. auto. }
  assert (CASE : forall k, In k ks -> (forall k', In k' ks -> k' = KForeign \/ k' = k) -> Some k = Some (alt_kind ks)).
  { intros k Ik AL. f_equal. unfold alt_kind.
    assert (NO : forall p k0, p k0 = true -> (forall k, p k = true -> k = k0) -> k0 <> KForeign -> k0 <> k -> existsb p ks = false).
    { intros p k0 P Q N1 N2. apply not_true_iff_false. intros D. apply (EX1 ks P Q) in D. destruct (AL _ D); contradiction. }
    assert (YES : forall p, p k = true -> existsb p ks = true) by (intros p P; apply existsb_exists; eauto).
    assert (FF : forallb foreignb ks = foreignb k).
    { destruct (foreignb k) eqn:Q; [apply forallb_forall; intros k' I'; destruct (AL k' I') as [->| ->]; [reflexivity|exact Q]|]. apply not_true_iff_false. intros D. rewrite forallb_forall in D. specialize (D k Ik). congruence. }
    rewrite FF. destruct k;
      repeat first [rewrite (YES tupleb) by reflexivity; reflexivity|rewrite (YES datab) by reflexivity; reflexivity|rewrite (YES rustb) by reflexivity; reflexivity
        |rewrite (NO tupleb KTuple) by (try discriminate; try reflexivity; intros []; try discriminate; reflexivity)
        |rewrite (NO datab KData) by (try discriminate; try reflexivity; intros []; try discriminate; reflexivity)
        |rewrite (NO rustb KRust) by (try discriminate; try reflexivity; intros []; try discriminate; reflexivity)]; cbn [foreignb]; try reflexivity.
    - rewrite (YES invb) by reflexivity. reflexivity.
    - rewrite (NO invb KInv) by (try discriminate; try reflexivity; intros []; try discriminate; reflexivity). reflexivity. }
  destruct CT as [t l EQ FS|t l1 l2 _ EQ F1 NT F2|I1 I2 FU|r EQ _].
  - rewrite NR in EQ. subst ts. inversion F as [|? k ? ks' C F']; subst. rewrite C. apply CASE; [left; reflexivity|].
    intros k' I'. right. apply INV in I'. destruct I' as (u & [<-|Iu] & Q); [congruence|]. rewrite Forall_forall in FS. rewrite <- (cls_same (FS u Iu)) in Q. congruence.
  - rewrite NR in EQ. assert (It : In t ts) by (rewrite EQ; apply in_or_app; right; left; reflexivity).
    assert (EK : exists k, cls t = Some k).
    { clear - F It. induction F as [|u k ts ks C F IH]; [destruct It|]. destruct It as [<-|It]; eauto. }
    destruct EK as (k & C). rewrite C. apply CASE; [apply INV; eauto|].
    intros k' I'. apply INV in I'. destruct I' as (u & Iu & Q). rewrite EQ in Iu. apply in_app_or in Iu. destruct Iu as [Iu|[<-|Iu]]; [| |].
    + rewrite Forall_forall in F1. rewrite <- (F1 u Iu) in Q. left. cbn in Q. congruence.
    + right. congruence.
    + rewrite Forall_forall in F2. destruct (F2 u Iu) as [->|S1]; [left; cbn in Q; congruence|]. right. rewrite <- (cls_same S1) in Q. congruence.
  - cbn. f_equal. unfold alt_kind. rewrite NR in FU. rewrite Forall_forall in FU.
    assert (AL : forall k, In k ks -> k = KInv \/ k = KUnit) by (intros k Ik; apply INV in Ik; destruct Ik as (u & Iu & Q); destruct (FU u Iu) as [->| ->]; cbn in Q; [left|right]; congruence).
    assert (II : In KInv ks) by (apply INV; exists IInvisible; auto).
    replace (existsb tupleb ks) with false by (symmetry; apply not_true_iff_false; intros D; apply EXT in D; destruct (AL _ D); discriminate).
    replace (existsb rustb ks) with false by (symmetry; apply not_true_iff_false; intros D; apply EXR in D; destruct (AL _ D); discriminate).
    replace (existsb datab ks) with false by (symmetry; apply not_true_iff_false; intros D; apply EXD in D; destruct (AL _ D); discriminate).
    replace (forallb foreignb ks) with false by (symmetry; apply not_true_iff_false; intros D; rewrite forallb_forall in D; specialize (D _ II); discriminate).
    replace (existsb invb ks) with true by (symmetry; apply EXI, II). reflexivity.
  - congruence.
Qed.

(** ---------------- kinds of the nodes ---------------- *)
Section Arena.
Variable G : grammar.
Variable ret : string -> option (option string).
Variable B : string -> Prop.
Definition action_kind (f : action) : kind := match f with ActPath p => act_kind ret p | ActExpr _ => KForeign end.
Definition const_kind (e : expr) : option kind :=
  match e with
  | EStr _ | ENot _ | EAnd _ => Some KInv
  | EAny | EClass _ => Some KData
  | ERange _ => Some KRust
  | EExt _ => Some KForeign
  | EAct _ _ f => Some (action_kind f)
  | EAsc _ t => Some (asc_kind t)
  | _ => None
  end.
(** [B]: rules that only recognise. *)
Inductive akind : nat -> kind -> Prop :=
| ak_const i e k : expr_of G i = Some e -> const_kind e = Some k -> akind i k
| ak_call i id rl k : expr_of G i = Some (ENT id) -> find_rule G id = Some rl -> akind (rexpr rl) k -> akind i k
| ak_bare i id rl : expr_of G i = Some (ENT id) -> find_rule G id = Some rl -> B id -> akind i KInv
| ak_seq i l ks : expr_of G i = Some (ESeq l) -> akinds l ks -> akind i (seq_kind ks)
| ak_alt i l ks : expr_of G i = Some (EAlt l) -> akinds l ks -> akind i (alt_kind ks)
| ak_star i c k : expr_of G i = Some (EStar c) -> akind c k -> akind i (rep_kind k)
| ak_plus i c k : expr_of G i = Some (EPlus c) -> akind c k -> akind i (rep_kind k)
| ak_opt i c k : expr_of G i = Some (EOpt c) -> akind c k -> akind i (rep_kind k)
| ak_span i c k : expr_of G i = Some (ESpan c) -> akind c k -> akind i (span_kind k)
with akinds : list nat -> list kind -> Prop :=
| ak_nil : akinds [] []
| ak_cons c l k ks : akind c k -> akinds l ks -> akinds (c :: l) (k :: ks).
(** Nodes that only recognise. *)
Inductive bnode : nat -> Prop :=
| bn_const i e : expr_of G i = Some e -> const_kind e = Some KInv -> bnode i
| bn_call i id rl : expr_of G i = Some (ENT id) -> find_rule G id = Some rl -> B id -> bnode i
| bn_seq i l : expr_of G i = Some (ESeq l) -> (forall c, In c l -> bnode c) -> bnode i
| bn_alt i l : expr_of G i = Some (EAlt l) -> l <> [] -> (forall c, In c l -> bnode c) -> bnode i
| bn_star i c : expr_of G i = Some (EStar c) -> bnode c -> bnode i
| bn_plus i c : expr_of G i = Some (EPlus c) -> bnode c -> bnode i
| bn_opt i c : expr_of G i = Some (EOpt c) -> bnode c -> bnode i.
End Arena.
Scheme akind_mind := Minimality for akind Sort Prop with akinds_mind := Minimality for akinds Sort Prop.
Combined Scheme akind_mutind from akind_mind, akinds_mind.
Section Bare.
Variable G : grammar.
Variable ret : string -> option (option string).
Variable B : string -> Prop.
Local Notation akind := (akind G ret B).
Local Notation akinds := (akinds G ret B).
Local Notation bnode := (bnode G ret B).
Lemma bnode_visits i e c : bnode i -> expr_of G i = Some e -> In c (visits e) -> bnode c.
Proof.
  intros N Ee Ic. destruct N as [i e' E' C|i id rl E' F R|i l E' H|i l E' NE H|i d E' H|i d E' H|i d E' H]; rewrite E' in Ee; injection Ee as <-; cbn [visits] in Ic; auto;
    try (destruct Ic as [<-|[]]; exact H).
  - destruct e'; cbn in C, Ic; try discriminate C; try destruct Ic.
  - destruct Ic.
Qed.
Lemma bnode_spos i j : spos G i j -> bnode i -> bnode j.
Proof. induction 1 as [x|x e c y Ex Ic S IH]; [auto|]. intros N. apply IH. exact (bnode_visits N Ex Ic). Qed.
Hypothesis HB : forall rl, In rl (rules G) -> B (rname rl) -> bnode (rexpr rl).
Lemma bnode_only : (forall i k, akind i k -> bnode i -> k = KInv) /\ (forall l ks, akinds l ks -> (forall c, In c l -> bnode c) -> (forall k, In k ks -> k = KInv) /\ (l <> [] -> ks <> [])).
Proof.
  apply akind_mutind.
  - intros i e k Ee C N. destruct N as [i e' E' C'|i id rl E' F R|i l E' H|i l E' NE H|i d E' H|i d E' H|i d E' H]; rewrite E' in Ee; injection Ee as <-; try discriminate C. congruence.
  - intros i id rl k Ee F A IH N. destruct N as [i e' E' C'|i id' rl' E' F' R|i l E' H|i l E' NE H|i d E' H|i d E' H|i d E' H]; rewrite E' in Ee; try discriminate Ee; injection Ee as ->; [discriminate C'|].
    destruct (find_rule_name F) as [RN RI]. apply IH, HB; [exact RI|]. rewrite RN. exact R.
  - reflexivity.
  - intros i l ks Ee A IH N. apply all_inv. refine (proj1 (IH _)). intros c Ic. exact (bnode_visits N Ee Ic).
  - intros i l ks Ee A IH N. destruct (IH (fun c Ic => bnode_visits N Ee Ic)) as [I1 I2]. apply all_inv; [exact I1|]. apply I2.
    destruct N as [i e' E' C'|i id' rl' E' F' R|i l' E' H|i l' E' NE H|i d E' H|i d E' H|i d E' H]; rewrite E' in Ee; try discriminate Ee; injection Ee as ->; [discriminate C'|exact NE].
  - intros i c k Ee A IH N. rewrite IH; [reflexivity|]. exact (bnode_visits N Ee (or_introl eq_refl)).
  - intros i c k Ee A IH N. rewrite IH; [reflexivity|]. exact (bnode_visits N Ee (or_introl eq_refl)).
  - intros i c k Ee A IH N. rewrite IH; [reflexivity|]. exact (bnode_visits N Ee (or_introl eq_refl)).
  - intros i c k Ee A IH N. destruct N as [i e' E' C'|i id' rl' E' F' R|i l' E' H|i l' E' NE H|i d E' H|i d E' H|i d E' H]; rewrite E' in Ee; try discriminate Ee; injection Ee as ->; discriminate C'.
  - intros _. split; [intros k []|congruence].
  - intros c l k ks A IH _ IHl N. split; [|discriminate]. intros k' [<-|I0]; [apply IH, N; left; reflexivity|]. refine (proj1 (IHl _) k' I0). intros d Id. apply N. right. exact Id.
Qed.
Lemma bnode_kind i : bnode i -> akind i KInv.
Proof.
  assert (L : forall l, (forall c, In c l -> akind c KInv) -> exists ks, akinds l ks /\ (l <> [] -> ks <> []) /\ forall k, In k ks -> k = KInv).
  { induction l as [|c l IH]; intros H; [exists []; repeat split; [constructor|congruence|intros k []]|]. destruct IH as (ks & A & X & C); [intros d I0; apply H; right; exact I0|].
    exists (KInv :: ks). repeat split; [constructor; [apply H; left; reflexivity|exact A]|discriminate|intros k [<-|I0]; auto]. }
  induction 1 as [i e Ee C|i id rl Ee F R|i l Ee _ IH|i l Ee NE _ IH|i c Ee _ IH|i c Ee _ IH|i c Ee _ IH].
  - exact (ak_const _ Ee C).
  - exact (ak_bare _ Ee F R).
  - destruct (L l IH) as (ks & A & _ & C). rewrite <- (proj1 (all_inv C)). exact (ak_seq Ee A).
  - destruct (L l IH) as (ks & A & X & C). rewrite <- (proj2 (all_inv C) (X NE)). exact (ak_alt Ee A).
  - exact (ak_star Ee IH).
  - exact (ak_plus Ee IH).
  - exact (ak_opt Ee IH).
Qed.
End Bare.

(** ---------------- the invariant ---------------- *)
Section Kinds.
Variable G : grammar.
Variable E : tenv.
Hypothesis HG : typable G.
Variable own : nat -> string.
Hypothesis HO : owned G own.
Hypothesis HF : forest G.
Variable rk : string -> nat.
Variable B : string -> Prop.
Variable bad : string -> bool.
Hypothesis HL : layered G rk B bad.
Hypothesis HBB : forall id, bad id = true -> B id.
Local Notation last := (length (exprs G) - 1).
Local Notation akind := (akind G (ret_of E) B).
Local Notation akinds := (akinds G (ret_of E) B).
Local Notation bnode := (bnode G (ret_of E) B).
Local Notation Lay := (Lay G E own B bad).
Local Notation At := (At G own rk bad).
Hypothesis HB : forall rl, In rl (rules G) -> B (rname rl) -> bnode (rexpr rl).

(** A type has the kind of its node, unless it was replaced: a foreign type by an ascription above, any type by [()] below
    an expression without value. *)
Definition KI (T : list ity) : Prop := forall i t, i < last -> nth_error T i = Some t -> t <> IInfer -> is_rec_ty t = false ->
  (exists k, cls t = Some k /\ akind i k) \/
  (akind i KForeign /\ (exists s, t = IRegular (TRust s)) /\ exists p, kid G p i /\ known_ty T p) \/
  (is_unit_kind t = true /\ exists p, kid G p i /\ unit_at T p).
Definition exact (T : list ity) (i : nat) : Prop := forall t, nth_error T i = Some t -> t <> IInfer -> is_rec_ty t = false -> exists k, cls t = Some k /\ akind i k.
Lemma root_exact T rl : KI T -> In rl (rules G) -> exact T (rexpr rl).
Proof.
  intros K I t Et Nt Rt. assert (R : root G (rexpr rl)) by (exists rl; auto).
  destruct (K _ t (fo_bound HF R) Et Nt Rt) as [A|[(_ & _ & p & Kp & _)|(_ & p & Kp & _)]]; [exact A| |]; exfalso; exact (fo_root HF R Kp).
Qed.
Lemma child_exact T i e c : KI T -> i < last -> nth_error T i = Some IInfer -> expr_of G i = Some e -> In c (children e) -> exact T c.
Proof.
  intros K Li Ei Ee Ic t Et Nt Rt. assert (KC : kid G i c) by (split; [exact Li|exists e; auto]). pose proof (kid_lt HG KC) as Lc.
  destruct (K c t ltac:(lia) Et Nt Rt) as [A|[(_ & _ & p & Kp & v & Ev & Nv)|(_ & p & Kp & v & Ev & Uv)]]; [exact A| |]; exfalso;
    rewrite (fo_parent HF Kp KC) in Ev; rewrite Ei in Ev; injection Ev as <-; [congruence|discriminate].
Qed.
Lemma exact_at T c : exact T c -> typed T c -> exists k, at_kind T c k /\ akind c k.
Proof. intros X (t & Et & Nt & Rt). destruct (X t Et Nt Rt) as (k & C & A). exists k. split; [exists t; auto|exact A]. Qed.
Lemma exact_list T l : (forall c, In c l -> exact T c) -> Forall (typed T) l -> exists ks, Forall2 (at_kind T) l ks /\ akinds l ks.
Proof.
  intros X F. induction F as [|c l K F IH]; [exists []; split; constructor|]. destruct IH as (ks & A & D); [intros d Id; apply X; right; exact Id|].
  destruct (exact_at (X c (or_introl eq_refl)) K) as (k & A1 & B1). exists (k :: ks). split; constructor; assumption.
Qed.
(** Recursive types: only at nodes that only recognise, and of rules that only recognise. *)
Definition bnames (r : list (rec_kind * list string)) : Prop := forall p x, In p r -> In x (snd p) -> B x.
Definition BR (T : list ity) : Prop := forall y r, nth_error T y = Some (IRec r) -> bnames r /\ bnode y.
Definition result (i : nat) (t : ity) : Prop := (exists k, cls t = Some k /\ akind i k) \/ (exists r, t = IRec r /\ bnames r /\ bnode i).

(** Storing the first type of a node. *)
Lemma KI_set T i t : KI T -> nth_error T i = Some IInfer -> t <> IInfer -> (i < last -> result i t) -> KI (update T i t).
Proof.
  intros K Ei Nt X j u Lj Ej Nu Ru. assert (L : i < length T) by (apply nth_error_Some; congruence). rewrite nth_update in Ej by exact L.
  destruct (Nat.eqb_spec j i) as [->|D]; [injection Ej as <-; left; destruct (X Lj) as [Q|(r & -> & _)]; [exact Q|discriminate]|].
  destruct (K j u Lj Ej Nu Ru) as [A|[(A & C & p & Kp & v & Ev & Nv)|(U & p & Kp & v & Ev & Uv)]]; [left; exact A|right; left|right; right].
  - split; [exact A|]. split; [exact C|]. exists p. split; [exact Kp|]. unfold known_ty. rewrite nth_update by exact L. destruct (Nat.eqb_spec p i); eauto.
  - split; [exact U|]. exists p. split; [exact Kp|]. unfold unit_at. rewrite nth_update by exact L. destruct (Nat.eqb_spec p i) as [->|]; [|eauto].
    rewrite Ei in Ev. injection Ev as <-. discriminate.
Qed.
Lemma BR_set T i t : BR T -> nth_error T i = Some IInfer -> result i t -> BR (update T i t).
Proof.
  intros R Ei X j r Ej. assert (L : i < length T) by (apply nth_error_Some; congruence). rewrite nth_update in Ej by exact L.
  destruct (Nat.eqb_spec j i) as [->|D]; [|exact (R j r Ej)]. injection Ej as ->. destruct X as [(k & C & _)|(r' & Q & X)]; [discriminate C|]. injection Q as ->. exact X.
Qed.
Lemma KI_unit T i p : length T = length (exprs G) -> KI T -> kid G p i -> unit_at T p -> KI (update T i (IRegular TUnit)).
Proof.
  intros LEN K KP U. pose proof (kid_lt HG KP) as Lt. assert (Lp : p < last) by (destruct KP; assumption). assert (L : i < length T) by lia.
  assert (UP : forall q, unit_at T q -> unit_at (update T i (IRegular TUnit)) q).
  { intros q (v & Ev & Uv). unfold unit_at. rewrite nth_update by exact L. destruct (Nat.eqb_spec q i); eauto. }
  intros j u Lj Ej Nu Ru. rewrite nth_update in Ej by exact L.
  destruct (Nat.eqb_spec j i) as [->|D]; [injection Ej as <-; right; right; split; [reflexivity|eauto]|].
  destruct (K j u Lj Ej Nu Ru) as [A|[(A & C & q & Kq & v & Ev & Nv)|(U' & q & Kq & Q)]]; [left; exact A|right; left|right; right; eauto].
  split; [exact A|]. split; [exact C|]. exists q. split; [exact Kq|]. unfold known_ty. rewrite nth_update by exact L.
  destruct (Nat.eqb_spec q i); [eexists; split; [reflexivity|discriminate]|eauto].
Qed.
Lemma KI_rust T i s : KI T -> i < last -> nth_error T i = Some IExternal -> (exists p, kid G p i /\ known_ty T p) -> KI (update T i (IRegular (TRust s))).
Proof.
  intros K Li Ei (p & KP & KN). assert (L : i < length T) by (apply nth_error_Some; congruence).
  assert (UP : forall q, known_ty T q -> known_ty (update T i (IRegular (TRust s))) q).
  { intros q (v & Ev & Nv). unfold known_ty. rewrite nth_update by exact L. destruct (Nat.eqb_spec q i); [eexists; split; [reflexivity|discriminate]|eauto]. }
  intros j u Lj Ej Nu Ru. rewrite nth_update in Ej by exact L.
  destruct (Nat.eqb_spec j i) as [->|D].
  - injection Ej as <-. destruct (K i IExternal Li Ei ltac:(discriminate) eq_refl) as [(k & C & A)|[(_ & (s' & Q) & _)|(Q & _)]]; try discriminate Q.
    right. left. cbn in C. injection C as <-. split; [exact A|]. split; [eauto|eauto].
  - destruct (K j u Lj Ej Nu Ru) as [A|[(A & C & q & Kq & Q)|(U' & q & Kq & v & Ev & Uv)]]; [left; exact A|right; left; eauto 6|right; right].
    split; [exact U'|]. exists q. split; [exact Kq|]. unfold unit_at. rewrite nth_update by exact L. destruct (Nat.eqb_spec q i) as [->|]; [|eauto].
    rewrite Ei in Ev. injection Ev as <-. discriminate.
Qed.
Lemma action_cls b f : cls (action_type E b f) = Some (action_kind (ret_of E) f).
Proof. destruct f as [[|g [|h p]]|]; try reflexivity. cbn. destruct (ret_of E g) as [[r|]|]; reflexivity. Qed.

(** A choice of several values: a branch of a Rust type is foreign. *)
Definition solid (u : ty) : Prop := u <> TUnit /\ forall r, u <> TRust r.
Definition AI (T : list ity) : Prop := forall i l us, expr_of G i = Some (EAlt l) -> solid us -> nth_error T i = Some (IRegular us) ->
  forall j, In j l -> known_ty T j /\ forall s, nth_error T j = Some (IRegular (TRust s)) -> akind j KForeign.
Lemma AI_unit T i : i < length T -> AI T -> AI (update T i (IRegular TUnit)).
Proof.
  intros L A p l us Ep SU Et j Ij. rewrite nth_update in Et by exact L. destruct (Nat.eqb_spec p i) as [->|D]; [injection Et as <-; destruct (proj1 SU eq_refl)|].
  destruct (A p l us Ep SU Et j Ij) as [(v & Ev & Nv) C]. unfold known_ty. rewrite nth_update by exact L. destruct (Nat.eqb_spec j i) as [->|D2].
  - split; [eexists; split; [reflexivity|discriminate]|]. discriminate.
  - split; [exists v; auto|exact C].
Qed.
Lemma AI_rust T i s : i < last -> KI T -> nth_error T i = Some IExternal -> AI T -> AI (update T i (IRegular (TRust s))).
Proof.
  intros Li K Ei A p l us Ep SU Et j Ij. assert (L : i < length T) by (apply nth_error_Some; congruence).
  rewrite nth_update in Et by exact L. destruct (Nat.eqb_spec p i) as [->|D]; [injection Et as <-; destruct (proj2 SU s eq_refl)|].
  destruct (A p l us Ep SU Et j Ij) as [(v & Ev & Nv) C0]. unfold known_ty. rewrite nth_update by exact L. destruct (Nat.eqb_spec j i) as [->|D2].
  - split; [eexists; split; [reflexivity|discriminate]|]. intros s' _.
    destruct (K i IExternal Li Ei ltac:(discriminate) eq_refl) as [(k & C & Q)|[(_ & (s2 & Q) & _)|(Q & _)]]; try discriminate Q. cbn in C. injection C as <-. exact Q.
  - split; [exists v; auto|exact C0].
Qed.
Definition KA (T : list ity) : Prop := KI T /\ AI T.
Definition KB (T : list ity) : Prop := KA T /\ BR T.
(** Replacing recursive types by nothing. *)
Lemma KB_unrec T T' : length T' = length T -> (forall j t, nth_error T j = Some t -> nth_error T' j = Some t \/ (is_rec_ty t = true /\ nth_error T' j = Some IInvisible)) -> KB T -> KB T'.
Proof.
  intros LEN H [[K A] R].
  assert (BACK : forall j u, nth_error T' j = Some u -> nth_error T j = Some u \/ (u = IInvisible /\ exists r, nth_error T j = Some (IRec r))).
  { intros j u Eu. destruct (nth_error T j) as [t|] eqn:Ej; [|apply nth_error_None in Ej; assert (j < length T') by (apply nth_error_Some; congruence); lia].
    destruct (H j t Ej) as [Q|[Q1 Q2]]; [left; congruence|]. right. split; [congruence|]. destruct t; try discriminate Q1. eauto. }
  assert (FW : forall j u, nth_error T j = Some u -> is_rec_ty u = false -> nth_error T' j = Some u) by (intros j u Eu Ru; destruct (H j u Eu) as [Q|[Q _]]; [exact Q|congruence]).
  assert (KN : forall j, known_ty T j -> known_ty T' j) by (intros j (u & Eu & Nu); destruct (H j u Eu) as [Q|[_ Q]]; [exists u; auto|exists IInvisible; split; [exact Q|discriminate]]).
  split; [split|].
  - intros j u Lj Ej Nu Ru. destruct (BACK j u Ej) as [Q|(-> & r & Q)].
    + destruct (K j u Lj Q Nu Ru) as [X|[(X & Y & p & Kp & Z)|(U & p & Kp & v & Ev & Uv)]]; [left; exact X|right; left; eauto 8|right; right].
      split; [exact U|]. exists p. split; [exact Kp|]. exists v. split; [|exact Uv]. apply FW; [exact Ev|]. destruct v; try reflexivity; discriminate.
    + left. exists KInv. split; [reflexivity|]. apply bnode_kind, (proj2 (R j r Q)).
  - intros p l us Ep SU Et j Ij. destruct (BACK _ _ Et) as [Q|(Q & _)]; [|discriminate Q]. destruct (A p l us Ep SU Q j Ij) as [X Y]. split; [exact (KN j X)|].
    intros s Es. destruct (BACK _ _ Es) as [Z|(Z & _)]; [|discriminate Z]. exact (Y s Z).
  - intros j r Ej. destruct (BACK _ _ Ej) as [Q|(Q & _)]; [exact (R j r Q)|discriminate Q].
Qed.
(** As [local] (SurfaceFacts.v), without errors. *)
Definition first (path : list string) (T : list ity) (e : expr) (t : ity) : Prop :=
  match e with
  | EAlt l => exists fuel ts, Forall2 (fun c u => nth_error T c = Some u /\ u <> IInfer) l ts /\ reduce_sum T fuel ts = WOk (Some t)
  | _ => local G E (fun _ _ => True) path T e t
  end.
Lemma rep_first T c k t u : at_kind T c k -> (t = TList c \/ t = TOptional c) -> reduce_unary T c (IRegular t) = WOk u -> cls u = Some (rep_kind k).
Proof.
  intros (v & Ev & C) D H. unfold reduce_unary in H. rewrite (tget_some Ev) in H. cbn [wbind] in H. apply WOk_inj' in H. subst u.
  destruct v as [| | | |[]]; cbn in C; try discriminate C; injection C as <-; destruct D as [-> | ->]; reflexivity.
Qed.
(** Without recursive types below. *)
Lemma first_plain path T i e t : Inv G path T -> KI T -> i < last -> expr_of G i = Some e -> nth_error T i = Some IInfer -> t <> IInfer ->
  (forall c r, In c (visits e) -> nth_error T c <> Some (IRec r)) -> (forall id, e <> ENT id) ->
  first path T e t -> exists k, cls t = Some k /\ akind i k.
Proof.
  intros HI K Li Ee Ei Nt NR NC H. pose proof (Inv_flat HI) as FL.
  assert (CH : forall c, In c (children e) -> exact T c) by (intros c Ic; exact (child_exact K Li Ei Ee Ic)).
  assert (TY : forall c, In c (visits e) -> known_ty T c -> typed T c) by (intros c Ic (u & Eu & Nu); exists u; split; [exact Eu|]; split; [exact Nu|]; destruct u; try reflexivity; exfalso; exact (NR _ _ Ic Eu)).
  destruct e as [lit| |cl|id|p|l|l|c|c|c|c|c|c b f|c u|c|c]; cbn [first local] in H.
  - subst t. eexists. split; [reflexivity|]. exact (ak_const _ Ee eq_refl).
  - subst t. eexists. split; [reflexivity|]. exact (ak_const _ Ee eq_refl).
  - subst t. eexists. split; [reflexivity|]. exact (ak_const _ Ee eq_refl).
  - destruct (NC id eq_refl).
  - subst t. eexists. split; [reflexivity|]. exact (ak_const _ Ee eq_refl).
  - destruct H as [KN RD].
    assert (TL : Forall (typed T) l) by (rewrite Forall_forall in *; intros c Ic; exact (TY c Ic (KN c Ic))).
    destruct (exact_list (l := l) CH TL) as (ks & F2 & AK). exists (seq_kind ks). split; [|exact (ak_seq Ee AK)].
    refine (seq_kinds FL _ F2 RD). intros ->. exact (tg_seq HG Ee).
  - destruct H as (fuel & ts & F2 & RD).
    assert (X : exists ks, Forall2 (fun u k => cls u = Some k) ts ks /\ akinds l ks).
    { clear RD TY. assert (CH' : forall c, In c l -> exact T c) by exact CH. assert (NR' : forall c r, In c l -> nth_error T c <> Some (IRec r)) by exact NR.
      clear CH Ee NR. induction F2 as [|c u l ts [Ec Nu] F2 IH]; [exists []; split; constructor|].
      destruct IH as (ks & A & D); [intros id; discriminate|intros d Id; apply CH'; right; exact Id|intros d r Id; apply NR'; right; exact Id|].
      assert (Ru : is_rec_ty u = false) by (destruct u; try reflexivity; exfalso; refine (NR' c _ _ Ec); left; reflexivity).
      destruct (CH' c (or_introl eq_refl) u Ec Nu Ru) as (k & C & AK). exists (k :: ks). split; constructor; assumption. }
    destruct X as (ks & A & D). exists (alt_kind ks). split; [exact (alt_kinds A RD)|exact (ak_alt Ee D)].
  - destruct H as [KN RD]. destruct (exact_at (CH c (or_introl eq_refl)) (TY c (or_introl eq_refl) KN)) as (k & A & D). exists (rep_kind k). split; [exact (rep_first A (or_introl eq_refl) RD)|exact (ak_star Ee D)].
  - destruct H as [KN RD]. destruct (exact_at (CH c (or_introl eq_refl)) (TY c (or_introl eq_refl) KN)) as (k & A & D). exists (rep_kind k). split; [exact (rep_first A (or_introl eq_refl) RD)|exact (ak_plus Ee D)].
  - destruct H as [KN RD]. destruct (exact_at (CH c (or_introl eq_refl)) (TY c (or_introl eq_refl) KN)) as (k & A & D). exists (rep_kind k). split; [exact (rep_first A (or_intror eq_refl) RD)|exact (ak_opt Ee D)].
  - subst t. eexists. split; [reflexivity|]. exact (ak_const _ Ee eq_refl).
  - subst t. eexists. split; [reflexivity|]. exact (ak_const _ Ee eq_refl).
  - subst t. eexists. split; [apply action_cls|]. exact (ak_const _ Ee eq_refl).
  - subst t. exists (asc_kind u). split; [|exact (ak_const _ Ee eq_refl)]. destruct (tg_asc HG Ee) as [->|[->|(s & ->)]]; reflexivity.
  - destruct H as [KN RD]. destruct (exact_at (CH c (or_introl eq_refl)) (TY c (or_introl eq_refl) KN)) as (k & A & D). exists (span_kind k). split; [|exact (ak_span Ee D)].
    destruct (iv_span HI) as (s & ES). exact (span_kinds FL ES A RD).
  - destruct H as [_ ->]. exists KRust. split; [reflexivity|exact (ak_const _ Ee eq_refl)].
Qed.
(** At a node that only recognises, with recursive types below. *)
Lemma first_bare path T i e t c0 r0 : Inv G path T -> KB T -> i < last -> expr_of G i = Some e -> nth_error T i = Some IInfer -> t <> IInfer ->
  bnode i -> In c0 (visits e) -> nth_error T c0 = Some (IRec r0) -> first path T e t -> result i t.
Proof.
  intros HI [[K _] R] Li Ee Ei Nt N I0 E0 H. pose proof (Inv_flat HI) as FL.
  assert (CH : forall c u, In c (visits e) -> nth_error T c = Some u -> u <> IInfer -> u = IInvisible \/ exists r, u = IRec r /\ bnames r).
  { intros c u Ic Ec Nu. destruct (is_rec_ty u) eqn:Ru; [right; destruct u; try discriminate Ru; eexists; split; [reflexivity|exact (proj1 (R _ _ Ec))]|].
    destruct (child_exact K Li Ei Ee (visits_children Ic) Ec Nu Ru) as (k & C & A). left. pose proof (proj1 (bnode_only HB) _ _ A (bnode_visits N Ee Ic)) as ->.
    destruct u as [| | | |[]]; cbn in C; try discriminate C; reflexivity. }
  assert (INV : result i IInvisible) by (left; exists KInv; split; [reflexivity|exact (bnode_kind N)]).
  assert (UN : forall c t0, visits e = [c] -> reduce_unary T c t0 = WOk t -> result i t).
  { intros c t0 EV Q. rewrite EV in I0. destruct I0 as [<-|[]]. unfold reduce_unary in Q. rewrite (tget_some E0) in Q. cbn [wbind] in Q. apply WOk_inj' in Q. subst t.
    right. eexists. split; [reflexivity|]. split; [|exact N]. intros p x Ip Ix. unfold to_poly in Ip. apply in_map_iff in Ip. destruct Ip as (q & <- & Iq). exact (proj1 (R _ _ E0) q x Iq Ix). }
  destruct e as [lit| |cl|id|p|l|l|c|c|c|c|c|c b f|c u|c|c]; cbn [first local visits] in *; try (destruct I0; fail).
  - destruct H as [KN RD]. pose proof (iv_ty HI E0 ltac:(discriminate)) as TQ.
    destruct (@reduce_tuple_rec T FL l t KN RD ltac:(exists c0, r0; split; [exact I0|]; split; [exact E0|exact (proj1 TQ)])) as (r & -> & _ & Q & _).
    right. exists r. split; [reflexivity|]. split; [|exact N]. intros p x Ip Ix. assert (IM : In (snd p) (map snd r)) by (apply in_map, Ip).
    apply Q in IM. destruct IM as (c & q & Ic & Ec & Iq). apply in_map_iff in Iq. destruct Iq as (p' & Ep & Ip'). refine (proj1 (R _ _ Ec) p' x Ip' _). rewrite Ep. exact Ix.
  - destruct H as (fuel & ts & F2 & RD).
    assert (TS : forall u, In u ts -> u = IInvisible \/ exists r, u = IRec r /\ bnames r).
    { intros u Iu. assert (X : exists c, In c l /\ nth_error T c = Some u /\ u <> IInfer).
      { clear - F2 Iu. induction F2 as [|c v l ts [Ec Nv] F2 IH]; [destruct Iu|]. destruct Iu as [->|Iu]; [exists c; cbn; auto|]. destruct (IH Iu) as (d & A & D). exists d. cbn. auto. }
      destruct X as (c & Ic & Ec & Nu). exact (CH c u Ic Ec Nu). }
    assert (NR : forall u, In u (non_rec ts) -> u = IInvisible).
    { intros u Iu. unfold non_rec in Iu. apply filter_In in Iu. destruct Iu as [Iu Q]. destruct (TS u Iu) as [->|(r & -> & _)]; [reflexivity|discriminate Q]. }
    apply reduce_sum_spec in RD. destruct RD as [_ CT]. destruct CT as [t l0 EQ FS|t l1 l2 IE EQ F1 NT F3|I1 I2 FU|r EQ P].
    + assert (t = IInvisible) as -> by (apply NR; rewrite EQ; left; reflexivity). exact INV.
    + exfalso. destruct (TS _ IE) as [Q|(r & Q & _)]; discriminate Q.
    + exact INV.
    + right. exists r. split; [reflexivity|]. split; [|exact N]. intros p x Ip Ix. apply P in Ip. unfold all_paths in Ip. apply in_flat_map in Ip. destruct Ip as (u & Iu & Ip).
      destruct (TS u Iu) as [->|(q & -> & Q)]; [destruct Ip|]. exact (Q p x Ip Ix).
  - destruct H as [_ H]. exact (UN c _ eq_refl H).
  - destruct H as [_ H]. exact (UN c _ eq_refl H).
  - destruct H as [_ H]. exact (UN c _ eq_refl H).
  - exfalso. destruct N as [i e' E' C'|i id' rl' E' F' Q|i l' E' H'|i l' E' NE H'|i d E' H'|i d E' H'|i d E' H']; rewrite E' in Ee; try discriminate Ee; injection Ee as ->; discriminate C'.
  - destruct H as [_ ->]. left. exists KRust. split; [reflexivity|exact (ak_const _ Ee eq_refl)].
Qed.
Lemma rec_own path T y r : Lay path T -> nth_error T y = Some (IRec r) -> B (own y).
Proof. intros LA Ey. destruct (bad (own y)) eqn:Q; [exact (HBB Q)|]. exact (proj1 (la_rec LA Ey Q eq_refl)). Qed.
Lemma at_bnode path i : At path i -> B (own i) -> bnode i.
Proof.
  destruct path as [|a rest]; [intros []|]. intros (OA & (rl & Irl & RN & SP) & _) Q. refine (bnode_spos SP (HB Irl _)). rewrite RN, <- OA. exact Q.
Qed.
(** Where the first types are computed: in a rule, or once all the rules are typed. *)
Definition md (path : list string) (T : list ity) : Prop := match path with [] => no_rec T | _ => Lay path T end.
Definition mq (path : list string) (i : nat) : Prop := match path with [] => True | _ => At path i end.
Lemma first_kind path T i e t : Inv G path T -> KB T -> md path T -> mq path i -> i < last -> expr_of G i = Some e -> nth_error T i = Some IInfer -> t <> IInfer ->
  first path T e t -> result i t.
Proof.
  intros HI KK MD MQ Li Ee Ei Nt H. pose proof KK as [[K _] R].
  assert (CALL : forall id, e = ENT id -> result i t).
  { intros id ->. cbn [first local] in H. destruct H as (rl & F & [[Ip ->]|Er]).
    - destruct path as [|a rest]; [destruct Ip|]. cbn [mq md] in *. pose proof MQ as (OA & (rl' & Irl & RN & SP) & RK).
      assert (X : bnames [(RUnit, id :: take_while (fun r => negb (String.eqb r id)) (a :: rest))] /\ B id).
      { destruct (bad a) eqn:BA.
        - assert (ALL : forall x, In x (a :: rest) -> B x) by (intros x [<-|Ix]; [exact (HBB BA)|rewrite Forall_forall in RK; exact (HBB (RK x Ix))]).
          split; [|exact (ALL id Ip)]. intros p x [<-|[]] [<-|Ix]; [exact (ALL id Ip)|]. apply ALL. clear - Ix. induction (a :: rest) as [|y l IH]; [destruct Ix|]. cbn [take_while] in Ix.
          destruct (negb (String.eqb y id)); [|destruct Ix]. destruct Ix as [<-|Ix]; [left; reflexivity|right; exact (IH Ix)].
        - assert (Q : id = a /\ B id).
          { destruct (HL Irl ltac:(congruence) SP Ee) as [[LT BI]|[Q1 Q2]]; [|split; [congruence|exact Q2]]. rewrite RN in LT. exfalso. destruct Ip as [<-|Ip]; [lia|].
            rewrite Forall_forall in RK. destruct (RK id Ip) as [X|X]; [congruence|lia]. }
          destruct Q as [<- Q]. split; [|exact Q]. cbn [take_while]. rewrite String.eqb_refl. intros p x [<-|[]] [<-|[]]. exact Q. }
      right. eexists. split; [reflexivity|]. split; [exact (proj1 X)|]. exact (bn_call (ret_of E) Ee F (proj2 X)).
    - destruct (find_rule_name F) as [RN RI]. destruct (is_rec_ty t) eqn:Rt.
      + destruct t as [|r| | |t]; try discriminate Rt. right. exists r. split; [reflexivity|]. split; [exact (proj1 (R _ _ Er))|]. refine (bn_call (ret_of E) Ee F _).
        destruct path as [|a rest]; [pose proof (MD _ _ Er) as Q; discriminate Q|]. pose proof (rec_own MD Er) as Q. rewrite (ow_root HO RI), RN in Q. exact Q.
      + destruct (root_exact K RI Er Nt Rt) as (k & C & A). left. exists k. split; [exact C|]. exact (ak_call Ee F A). }
  assert (D : (exists id, e = ENT id) \/ forall id, e <> ENT id) by (destruct e; try (right; intros id0; discriminate); left; eauto).
  destruct D as [(id & Q)|NC]; [exact (CALL id Q)|].
  assert (D : (exists c r, In c (visits e) /\ nth_error T c = Some (IRec r)) \/ forall c r, In c (visits e) -> nth_error T c <> Some (IRec r)).
  { clear - T. induction (visits e) as [|c l IH]; [right; intros c r []|]. destruct IH as [(d & r & Id & Ed)|IH]; [left; exists d, r; cbn; auto|].
    destruct (nth_error T c) as [[|r| | |u]|] eqn:Ec; try (right; intros d r' [<-|Id]; [congruence|exact (IH d r' Id)]). left. exists c, r. cbn. auto. }
  destruct D as [(c & r & Ic & Ec)|NR]; [|left; exact (first_plain HI K Li Ee Ei Nt NR NC H)].
  refine (first_bare HI KK Li Ee Ei Nt _ Ic Ec H). destruct path as [|a rest]; [pose proof (MD _ _ Ec) as Q; discriminate Q|].
  apply (at_bnode MQ). rewrite <- (ow_child HO Ee (visits_children Ic)). exact (rec_own MD Ec).
Qed.

Lemma AI_set path T i e t : AI T -> nth_error T i = Some IInfer -> expr_of G i = Some e -> t <> IInfer -> first path T e t -> AI (update T i t).
Proof.
  intros A Ei Ee Nt H p l us Ep SU Et j Ij. assert (L : i < length T) by (apply nth_error_Some; congruence). rewrite nth_update in Et by exact L.
  assert (KN : forall d, known_ty T d -> d <> i -> known_ty (update T i t) d).
  { intros d (v & Ev & Nv) D. exists v. rewrite nth_update by exact L. destruct (Nat.eqb_spec d i); [contradiction|auto]. }
  assert (NX : forall d, known_ty T d -> d <> i) by (intros d (v & Ev & Nv) ->; congruence).
  destruct (Nat.eqb_spec p i) as [->|D].
  - injection Et as ->. assert (e = EAlt l) by congruence. subst e. destruct H as (fuel & ts & F2 & RD).
    assert (X : exists u, nth_error T j = Some u /\ u <> IInfer /\ In u ts).
    { clear - F2 Ij. induction F2 as [|c u l ts [Ec Nu] F2 IH]; [destruct Ij|]. destruct Ij as [<-|Ij]; [exists u; cbn; auto|]. destruct (IH Ij) as (v & A & D & C). exists v. cbn. auto. }
    destruct X as (u & Eu & Nu & Iu). assert (KJ : known_ty T j) by (exists u; auto). split; [exact (KN j KJ (NX j KJ))|]. intros s Es. exfalso.
    rewrite nth_update in Es by exact L. destruct (Nat.eqb_spec j i) as [Q|_]; [exact (NX j KJ Q)|]. assert (u = IRegular (TRust s)) by congruence. subst u.
    assert (IN : In (IRegular (TRust s)) (non_rec ts)) by (apply in_non_rec; [reflexivity|exact Iu]).
    assert (NS : ~ same T (IRegular us) (IRegular (TRust s))) by (intros Q; inversion Q; subst; exact (proj2 SU _ eq_refl)).
    apply reduce_sum_spec in RD. destruct RD as [_ CT]. inversion CT as [t0 l0 EQ FS Q|t0 l1 l2 _ EQ F1 NT F3 Q|? ? ?|r EQ _ Q]; subst; try discriminate.
    + rewrite EQ in IN. destruct IN as [Q|IN]; [injection Q as ->; exact (proj2 SU _ eq_refl)|]. rewrite Forall_forall in FS. exact (NS (FS _ IN)).
    + rewrite EQ in IN. apply in_app_or in IN. rewrite Forall_forall in F1, F3. destruct IN as [IN|[Q|IN]]; [specialize (F1 _ IN); discriminate F1|injection Q as ->; exact (proj2 SU _ eq_refl)|].
      destruct (F3 _ IN) as [Q|Q]; [discriminate Q|exact (NS Q)].
  - destruct (A p l us Ep SU Et j Ij) as [KJ C]. split; [exact (KN j KJ (NX j KJ))|]. intros s Es. rewrite nth_update in Es by exact L.
    destruct (Nat.eqb_spec j i) as [Q|_]; [exfalso; exact (NX j KJ Q)|exact (C s Es)].
Qed.

Definition vis_good (ve : list string -> nat -> tst -> wres (ity * tst)) : Prop := forall path i st t st', path_ok G path ->
  here G own path (tys st) i -> Inv G path (tys st) -> mq path i -> i < last -> ve path i st = WOk (t, st') -> terr st' = false ->
  md path (tys st) -> KB (tys st) -> KB (tys st') /\ md path (tys st').
Definition call_of (path : list string) (id : string) (T : list ity) (t : ity) : Prop :=
  exists rl, find_rule G id = Some rl /\ ((In id path /\ t = rec_type path id) \/ nth_error T (rexpr rl) = Some t).
(** Once all the rules are typed. *)
Lemma srule_known ve path id st t st' : (forall rl, In rl (rules G) -> known_ty (tys st) (rexpr rl)) -> srule G ve path id st = WOk (t, st') -> st' = st /\ call_of path id (tys st) t.
Proof.
  intros KN H. unfold srule in H. destruct (find_rule G id) as [rl|] eqn:F; [|discriminate]. destruct (find_rule_name F) as [_ RI].
  apply wbind_ok in H. destruct H as (u & Eu & H). apply tget_ok in Eu. destruct (KN rl RI) as (v & Ev & Nv). assert (v = u) by congruence. subst v.
  destruct u as [|r| | |u]; try congruence; apply WOk_inj', pair_inj in H; destruct H as [<- <-]; split; try reflexivity; exists rl; auto.
Qed.
(** A rule, from within rules. *)
Lemma srule_good ve : vis_ok' G own ve -> vis_good ve -> forall path id st t st', path_ok G path -> Inv G path (tys st) ->
  (forall rl, find_rule G id = Some rl -> ~ In id path -> nth_error (tys st) (rexpr rl) = Some IInfer -> At (id :: path) (rexpr rl)) ->
  srule G ve path id st = WOk (t, st') -> t <> IInfer -> terr st' = false -> Lay path (tys st) -> KB (tys st) ->
  KB (tys st') /\ Lay path (tys st') /\ call_of path id (tys st') t.
Proof.
  intros V VP path id st t st' PO HI HQ H NI NE LA HP. unfold srule in H.
  assert (EF : exists rl, find_rule G id = Some rl) by (destruct (find_rule G id); [eauto|discriminate]). destruct EF as (rl & F). rewrite F in H.
  apply wbind_ok in H. destruct H as (u & Eu & H). apply tget_ok in Eu.
  destruct u as [|r| | |u]; try (apply WOk_inj', pair_inj in H; destruct H as [<- <-]; split; [exact HP|]; split; [exact LA|exists rl; auto]).
  destruct (existsb (String.eqb id) path) eqn:EX.
  { apply WOk_inj', pair_inj in H. destruct H as [<- <-]. split; [exact HP|]. split; [exact LA|]. exists rl. split; [exact F|]. left. split; [|reflexivity].
    apply existsb_exists in EX. destruct EX as (x & Ix & Ex). apply String.eqb_eq in Ex. subst x. exact Ix. }
  assert (NP : ~ In id path). { intros NN. rewrite <- not_true_iff_false in EX. apply EX, existsb_exists. exists id. split; [exact NN|apply String.eqb_refl]. }
  apply wbind_ok in H. destruct H as ([t1 st1] & E1 & H). cbn [fst snd] in H. apply wbind_ok in H. destruct H as (t2 & E2 & H).
  apply WOk_inj', pair_inj in H. destruct H as [<- <-]. unfold tset in *. cbn [tys terr] in *.
  assert (PO' : path_ok G (id :: path)) by (constructor; [exists rl; exact F|exact PO]).
  destruct (find_rule_name F) as [RN RI]. assert (OW : own (rexpr rl) = id) by (rewrite (ow_root HO RI); exact RN).
  specialize (HQ rl F NP Eu).
  destruct (V (id :: path) (rexpr rl) st t1 st1 PO' OW (Inv_weaken id HI) E1) as (I1 & X1 & R1 & N1 & M1 & FR1).
  assert (RT : root G (rexpr rl)) by (exists rl; auto).
  pose proof (lay_enter HI F NP Eu HQ LA) as LE.
  destruct (VP (id :: path) (rexpr rl) st t1 st1 PO' OW (Inv_weaken id HI) HQ (fo_bound HF RT) E1 NE LE HP) as [P1 L1].
  assert (K1 : known_ty (tys st1) (rexpr rl)) by (exists t1; auto). pose proof (Inv_leave F K1 I1) as I1'. pose proof (iv_ty I1' R1 N1) as TY1.
  assert (TY : tyok G path (tys st1) t2).
  { destruct t1 as [|r| | |t1]; try (cbn [reduce_rec_entry_point] in E2; injection E2 as <-; exact TY1).
    cbn [reduce_rec_entry_point] in E2. apply wbind_ok in E2. destruct E2 as (e & Ee & E2). destruct (e =? id)%string; [|injection E2 as <-; exact TY1].
    destruct (@reduce_rec_ok G path (tys st1) r t2 I1' TY1 E2) as (R2 & T2 & P2). destruct T2 as [->|T2]; [congruence|exact T2]. }
  pose proof (lay_leave HG HO HF I1' F NP R1 N1 HQ E2 TY L1) as LV. cbn [md] in L1.
  assert (LT : rexpr rl < length (tys st1)) by (apply nth_error_Some; congruence).
  assert (D : t2 = t1 \/ (is_rec_ty t1 = true /\ t2 = IInvisible)).
  { destruct t1 as [|r| | |t1]; try (left; cbn [reduce_rec_entry_point] in E2; congruence). cbn [reduce_rec_entry_point] in E2. apply wbind_ok in E2. destruct E2 as (e & Ee & E2).
    destruct (e =? id)%string; [|left; congruence]. right. split; [reflexivity|]. cbn [reduce_rec] in E2. destruct (is_poly r); [congruence|].
    destruct P1 as [[KI1 _] BR1]. pose proof (proj1 (BR1 _ _ R1)) as BN.
    assert (NAMES : forall x, In x (flat_map snd r) -> B x) by (intros x Ix; apply in_flat_map in Ix; destruct Ix as (p & Ip & Ix); exact (BN p x Ip Ix)).
    assert (N2 : t2 <> IInfer) by congruence. clear - E2 NAMES KI1 N2 HB HF. induction (flat_map snd r) as [|x ids IH]; cbn [first_non_rec] in E2; [congruence|].
    destruct (find_rule G x) as [rx|] eqn:FX; [|discriminate]. destruct (find_rule_name FX) as [RN RI]. apply wbind_ok in E2. destruct E2 as (u & Eu & E2). apply tget_ok in Eu.
    destruct (is_rec_ty u) eqn:Ru; [destruct u; try discriminate Ru; apply IH; [exact E2|intros y Iy; apply NAMES; right; exact Iy]|].
    assert (u = t2) as -> by (destruct u; try discriminate Ru; congruence). destruct (root_exact KI1 RI Eu N2 Ru) as (k & C & A).
    assert (BX : B (rname rx)) by (rewrite RN; apply NAMES; left; reflexivity). rewrite (proj1 (bnode_only HB) _ _ A (HB RI BX)) in C. destruct t2 as [| | | |[]]; cbn in C; try discriminate C; reflexivity. }
  split; [|split; [exact LV|exists rl; split; [exact F|]; right; rewrite nth_update by exact LT; rewrite Nat.eqb_refl; reflexivity]].
  refine (KB_unrec _ _ P1); [exact (length_update _ LT)|]. intros j u Ej. rewrite nth_update by exact LT. destruct (Nat.eqb_spec j (rexpr rl)) as [->|_]; [|left; exact Ej].
  assert (u = t1) by congruence. subst u. destruct D as [-> |[Q ->]]; [left; reflexivity|right; auto].
Qed.
Lemma mq_child path i e j : expr_of G i = Some e -> In j (visits e) -> mq path i -> mq path j.
Proof. destruct path as [|a rest]; [auto|]. intros Ee Ij M. exact (at_child HO Ee Ij M). Qed.
Lemma sexprs_good ve path i e : vis_ok' G own ve -> vis_fixed G own ve -> vis_good ve -> path_ok G path -> expr_of G i = Some e -> i < last -> forall l st ts st', incl l (visits e) -> mq path i ->
  here G own path (tys st) i -> Inv G path (tys st) -> sexprs (ve path) l st = WOk (ts, st') -> terr st' = false -> md path (tys st) -> KB (tys st) ->
  KB (tys st') /\ md path (tys st') /\ Forall2 (fun c u => nth_error (tys st') c = Some u /\ u <> IInfer) l ts.
Proof.
  intros V VF VP PO Ee Li. induction l as [|c l IH]; intros st ts st' SUB HQ HH HI H NE MD HP; cbn [sexprs] in H.
  - apply WOk_inj', pair_inj in H. destruct H as [<- <-]. split; [auto|]. split; [auto|constructor].
  - apply wbind_ok in H. destruct H as ([t st1] & E1 & H). apply wbind_ok in H. destruct H as ([ts2 st2] & E2 & H). cbn [fst snd] in *.
    apply WOk_inj', pair_inj in H. destruct H as [<- <-]. assert (IV : In c (visits e)) by (apply SUB; left; reflexivity).
    pose proof (visits_children IV) as IC. pose proof (ow_child HO Ee IC) as OC.
    assert (Lc : c < last) by (pose proof (tg_children HG Ee) as FC; rewrite Forall_forall in FC; specialize (FC c IC); cbv beta in FC; lia).
    destruct (V _ _ _ _ _ PO (here_ext (ext_refl _) OC HH) HI E1) as (I1 & X1 & R1 & N1 & M1 & F1).
    assert (SUB' : incl l (visits e)) by (intros x Hx; apply SUB; right; exact Hx).
    destruct (sexprs_ok HO V PO Ee (fun x Hx => visits_children (SUB' x Hx)) (here_ext X1 eq_refl HH) I1 E2) as (_ & X2 & _ & _ & M2 & _).
    assert (NE1 : terr st1 = false) by (destruct (terr st1) eqn:Q; [specialize (M2 eq_refl); congruence|reflexivity]).
    destruct (VP _ _ _ _ _ PO (here_ext (ext_refl _) OC HH) HI (mq_child Ee IV HQ) Lc E1 NE1 MD HP) as [P1 MD1].
    destruct (IH _ _ _ SUB' HQ (here_ext X1 eq_refl HH) I1 E2 NE MD1 P1) as (P2 & MD2 & F2).
    split; [exact P2|]. split; [exact MD2|]. constructor; [|exact F2]. split; [|exact N1].
    pose proof (sexprs_fixed HO V VF PO Ee (fun x Hx => visits_children (SUB' x Hx)) (here_ext X1 eq_refl HH) I1 E2) as FX. refine (FX c t _ R1 N1).
    intros RT. refine (@fo_root G HF c i RT _). split; [exact Li|]. exists e. auto.
Qed.
Theorem sexpr_good fuel : vis_good (sexpr G E fuel).
Proof.
  induction fuel as [|k IH]; intros path i st t st' PO HH HI HQ Li H NE MD HP; [discriminate|]. pose proof (@sexpr_ok G E HG own HO k) as V. pose proof (@sexpr_fixed G E HG own HO k) as VF.
  pose proof H as HALL. cbn [sexpr] in H. apply wbind_ok in H. destruct H as (u & Eu & H). apply tget_ok in Eu.
  destruct u as [|r| | |u]; try (apply WOk_inj', pair_inj in H; destruct H as [<- <-]; split; [exact HP|exact MD]).
  destruct (expr_of G i) as [e|] eqn:Ee; [|discriminate]. apply wbind_ok in H. destruct H as ([t1 st1] & E1 & H). cbn [fst snd] in H.
  apply wbind_ok in H. destruct H as (t2 & E2 & H). apply WOk_inj', pair_inj in H. destruct H as [<- <-].
  assert (N1 : t1 <> IInfer) by (intros ->; discriminate).
  destruct (swalk_ok HG HO V PO HH HI Ee E1 N1) as (I1 & X1 & R1 & M1 & FR). pose proof (reduce_ok I1 R1 E2) as TY.
  pose proof (walk_leaves HG HH Ee FR) as SAME. rewrite Eu in SAME. unfold tset in *. cbn [tys terr] in *.
  assert (N2 : t2 <> IInfer) by (intros ->; exact TY).
  assert (FIN : KB (tys st1) /\ md path (tys st1) -> first path (tys st1) e t2 -> KB (update (tys st1) i t2) /\ md path (update (tys st1) i t2)).
  { intros [P1 MD1] LO. pose proof (first_kind I1 P1 MD1 HQ Li Ee SAME N2 LO) as RS.
    split; [split; [split|]|]; [exact (KI_set (proj1 (proj1 P1)) SAME N2 (fun _ => RS))|exact (AI_set (proj2 (proj1 P1)) SAME Ee N2 LO)|exact (BR_set (proj2 P1) SAME RS)|].
    destruct path as [|a rest].
    - cbn [md] in *. intros j v Ej. rewrite nth_update in Ej by (apply nth_error_Some; congruence). destruct (Nat.eqb_spec j i) as [->|_]; [|exact (MD1 _ _ Ej)]. injection Ej as <-.
      destruct (is_rec_ty t2) eqn:R2; [|reflexivity]. exfalso. destruct t2 as [|r| | |t2]; try discriminate R2.
      assert (NOC : forall c r', nth_error (tys st1) c <> Some (IRec r')) by (intros c r' Ec; pose proof (MD1 _ _ Ec) as Q; discriminate Q).
      destruct e as [lit| |cl|id|p|l|l|c|c|c|c|c|c b f|c u|c|c].
      4:{ cbn [first local] in LO. destruct LO as (rl & F & [[[] _]|Er]). exact (NOC _ _ Er). }
      all: destruct (first_plain I1 (proj1 (proj1 P1)) Li Ee SAME N2 (fun c r' _ => NOC c r') ltac:(discriminate) LO) as (kk & C & _); discriminate C.
    - cbn [md mq] in *. refine (@sexpr_pres G E HG own HO Lay At (fun _ => own_rec G own B bad) (fun path T c t => @lay_rec G E own rk B bad path T c t) (@at_child G own HO rk bad) (@at_call G own HO rk B bad HL) (@lay_set G E HG own HO HF rk B bad HL) (@lay_enter G E own rk B bad) (@lay_leave G E HG own HO HF rk B bad)
        (S k) (a :: rest) i st t2 _ PO HH HI HQ HALL MD). }
  assert (STO : tyok G path (tys st1) t1 -> t2 = t1). { intros K. rewrite (reduce_stored I1 K) in E2. congruence. }
  assert (CHILD : forall j u, In j (visits e) -> wbind (sexpr G E k path j st) (fun q => WOk (u (length (tys (snd q))), snd q)) = WOk (t1, st1) ->
    (KB (tys st1) /\ md path (tys st1)) /\ known_ty (tys st1) j /\ t1 = u (length (tys st1))).
  { intros j u IV K. apply wbind_ok in K. destruct K as ([tc sc] & Ec & K). cbn [snd] in K. apply WOk_inj', pair_inj in K. destruct K as [<- <-].
    pose proof (ow_child HO Ee (visits_children IV)) as OC.
    assert (Lj : j < last) by (pose proof (tg_children HG Ee) as FC; rewrite Forall_forall in FC; specialize (FC j (visits_children IV)); cbv beta in FC; lia).
    destruct (V _ _ _ _ _ PO (here_ext (ext_refl _) OC HH) HI Ec) as (_ & _ & Rc & Nc & _).
    split; [exact (IH _ _ _ _ _ PO (here_ext (ext_refl _) OC HH) HI (mq_child Ee IV HQ) Lj Ec NE MD HP)|]. split; [exists tc; auto|reflexivity]. }
  destruct e as [lit| |cl|id|p|l|l|j|j|j|j|j|j b f|j u|j|j]; cbn [swalk] in E1.
  - apply WOk_inj', pair_inj in E1. destruct E1 as [<- <-]. apply FIN; [auto|]. exact (STO I).
  - apply WOk_inj', pair_inj in E1. destruct E1 as [<- <-]. apply FIN; [auto|]. exact (STO I).
  - apply WOk_inj', pair_inj in E1. destruct E1 as [<- <-]. apply FIN; [auto|]. exact (STO I).
  - destruct (srule_ok HO V PO HI E1) as [_ K]. destruct (K N1) as (_ & _ & TY1 & _). rewrite (STO TY1) in *.
    destruct path as [|a rest].
    + destruct (srule_known HH E1) as [-> C]. apply FIN; [auto|exact C].
    + assert (HQ' : forall rl, find_rule G id = Some rl -> ~ In id (a :: rest) -> nth_error (tys st) (rexpr rl) = Some IInfer -> At (id :: a :: rest) (rexpr rl)) by (intros rl F NP UN; exact (at_call HO HL Ee F NP HH UN HQ)).
      destruct (srule_good V IH PO HI HQ' E1 N1 NE MD HP) as (P1 & L1 & C). apply FIN; [auto|exact C].
  - apply WOk_inj', pair_inj in E1. destruct E1 as [<- <-]. apply FIN; [auto|]. exact (STO I).
  - apply wbind_ok in E1. destruct E1 as ([ts sc] & Es & E1). cbn [snd] in E1. apply WOk_inj', pair_inj in E1. destruct E1 as [<- <-].
    destruct (sexprs_good V VF IH PO Ee Li (incl_refl _) HQ HH HI Es NE MD HP) as (P1 & MD1 & F2). destruct (sexprs_ok HO V PO Ee (incl_refl _) HH HI Es) as (_ & _ & KN & _).
    apply FIN; [auto|]. split; [exact KN|exact E2].
  - apply wbind_ok in E1. destruct E1 as ([ts sc] & Es & E1). cbn [fst snd] in E1. apply wbind_ok in E1. destruct E1 as (r & Er & E1). apply WOk_inj' in E1.
    destruct r as [v|]; apply pair_inj in E1; destruct E1 as [<- <-]; [|discriminate NE].
    destruct (sexprs_good V VF IH PO Ee Li (incl_refl _) HQ HH HI Es NE MD HP) as (P1 & MD1 & F2). destruct (sexprs_ok HO V PO Ee (incl_refl _) HH HI Es) as (_ & _ & KN & TS & _).
    apply FIN; [auto|]. exists (cmp_fuel E), ts. rewrite (STO (reduce_sum_ok TS Er)). auto.
  - destruct (CHILD j (fun _ => IRegular (TList j)) (or_introl eq_refl) E1) as (P1 & KN & ->). apply FIN; [exact P1|]. split; [exact KN|exact E2].
  - destruct (CHILD j (fun _ => IRegular (TList j)) (or_introl eq_refl) E1) as (P1 & KN & ->). apply FIN; [exact P1|]. split; [exact KN|exact E2].
  - destruct (CHILD j (fun _ => IRegular (TOptional j)) (or_introl eq_refl) E1) as (P1 & KN & ->). apply FIN; [exact P1|]. split; [exact KN|exact E2].
  - apply WOk_inj', pair_inj in E1. destruct E1 as [<- <-]. apply FIN; [auto|]. exact (STO I).
  - apply WOk_inj', pair_inj in E1. destruct E1 as [<- <-]. apply FIN; [auto|]. exact (STO I).
  - apply WOk_inj', pair_inj in E1. destruct E1 as [<- <-]. apply FIN; [auto|]. apply STO, action_type_ok.
  - apply WOk_inj', pair_inj in E1. destruct E1 as [<- <-]. apply FIN; [auto|]. apply STO. destruct (tg_asc HG Ee) as [->|[->|(s & ->)]]; exact I.
  - destruct (CHILD j (fun n => IRegular (TTuple [n - 1; j])) (or_introl eq_refl) E1) as (P1 & KN & ->). apply FIN; [exact P1|]. split; [exact KN|exact E2].
  - destruct (CHILD j (fun _ => IRegular (TRust (range_ty E))) (or_introl eq_refl) E1) as (P1 & KN & ->). apply FIN; [exact P1|]. split; [exact KN|]. exact (STO I).
Qed.
Theorem surface_good fuel : forall rs st st', incl rs (rules G) -> Inv G [] (tys st) -> surface_from G E fuel rs st = WOk st' -> terr st' = false -> Lay [] (tys st) -> KB (tys st) -> KB (tys st') /\ Lay [] (tys st').
Proof.
  induction rs as [|rl rs IH]; intros st st' SUB HI H NE LA HP; cbn [surface_from] in H; [injection H as <-; auto|].
  apply wbind_ok in H. destruct H as ([t st1] & E1 & H). cbn [snd] in H.
  destruct (srule_ok HO (@sexpr_ok G E HG own HO fuel) ltac:(constructor) HI E1) as [N K]. specialize (N eq_refl). destruct (K N) as (I1 & _).
  assert (SUB' : incl rs (rules G)) by (intros x Hx; apply SUB; right; exact Hx).
  destruct (surface_ok HG HO SUB' I1 H) as (_ & _ & M1 & _).
  assert (NE1 : terr st1 = false) by (destruct (terr st1) eqn:Q; [specialize (M1 eq_refl); congruence|reflexivity]).
  assert (X : forall rl', find_rule G (rname rl) = Some rl' -> ~ In (rname rl) [] -> nth_error (tys st) (rexpr rl') = Some IInfer -> At [rname rl] (rexpr rl')).
  { intros rl' F _ _. destruct (find_rule_name F) as [RN RI]. rewrite <- RN. exact (at_top HO rk bad RI). }
  destruct (srule_good (@sexpr_ok G E HG own HO fuel) (@sexpr_good fuel) (Forall_nil _) HI X E1 N NE1 LA HP) as (P1 & L1 & _).
  exact (IH _ _ SUB' I1 H NE L1 P1).
Qed.
(** The recursive types are then replaced: all by nothing. *)
Theorem unrec_good st st' : KB (tys st) -> (forall rl, In rl (rules G) -> known_ty (tys st) (rexpr rl)) -> reduce_all_rec G st = WOk st' -> KB (tys st').
Proof.
  intros HP KN H. unfold reduce_all_rec in H. apply wbind_ok in H. destruct H as (T' & HT & H). apply WOk_inj' in H. subst st'. cbn [tys]. destruct (reduce_recs_at HT) as [LEN AT0].
  refine (KB_unrec LEN _ HP). intros j t Ej. destruct (AT0 j t Ej) as (t' & Et' & RD). destruct t as [|r| | |t]; cbn [reduce_rec] in RD; try (left; congruence).
  right. split; [reflexivity|]. rewrite Et'. f_equal. destruct (is_poly r); [congruence|]. destruct HP as [[KI1 _] BR1]. pose proof (proj1 (BR1 _ _ Ej)) as BN.
  assert (NAMES : forall x, In x (flat_map snd r) -> B x) by (intros x Ix; apply in_flat_map in Ix; destruct Ix as (p & Ip & Ix); exact (BN p x Ip Ix)).
  clear - RD NAMES KI1 HB HF KN. induction (flat_map snd r) as [|x ids IH]; cbn [first_non_rec] in RD; [congruence|].
  destruct (find_rule G x) as [rx|] eqn:FX; [|discriminate]. destruct (find_rule_name FX) as [RN RI]. apply wbind_ok in RD. destruct RD as (u & Eu & RD). apply tget_ok in Eu.
  destruct (is_rec_ty u) eqn:Ru; [destruct u; try discriminate Ru; apply IH; [exact RD|intros y Iy; apply NAMES; right; exact Iy]|].
  assert (u = t') as -> by (destruct u; try discriminate Ru; congruence). destruct (KN rx RI) as (v & Ev & Nv). assert (v = t') by congruence. subst v.
  destruct (root_exact KI1 RI Eu Nv Ru) as (k & C & A).
  assert (BX : B (rname rx)) by (rewrite RN; apply NAMES; left; reflexivity). rewrite (proj1 (bnode_only HB) _ _ A (HB RI BX)) in C. destruct t' as [| | | |[]]; cbn in C; try discriminate C; reflexivity.
Qed.
End Kinds.

(** ---------------- after the two passes ---------------- *)
From Verif Require Import GenAgree TypingTop TypingVerdict TypingTotal TypingAnswer PropertiesTyping PropertiesRules.
(** What the theorems below ask of the rules that only recognise: [B] of the rules on which their own type depends, [bad] of others of them. *)
Definition plain_rules (G : grammar) (E : tenv) (rk : string -> nat) (B : string -> Prop) (bad : string -> bool) : Prop :=
  layered G rk B bad /\ (forall id, bad id = true -> B id) /\ forall rl, In rl (rules G) -> B (rname rl) -> bnode (igrammar G) (ret_of E) B (rexpr rl).
Theorem final_table E fuel G G' rk B bad : well_built G -> type_inference E fuel G = WOk (Some G') -> plain_rules G E rk B bad ->
  exists T, (forall j u, nth_error T j = Some u -> exists w, nth_error (types G') j = Some w /\ reduce_final u = WOk w) /\ length T = length (exprs (igrammar G)) /\
  KA (igrammar G) E B T /\ no_rec T /\ (forall j, j < length (exprs G) -> known_ty T j).
Proof.
  intros WB H (HL & HBB & HB). destruct (infer_inv H) as (st1 & st2 & st3 & out & H1 & E1 & H2 & H3 & E3 & H4 & _ & ->).
  pose proof (ig_typable WB) as HG. pose proof (ig_owned WB) as HO. pose proof (ig_forest WB) as HF. pose proof (ig_layered WB HL) as HL'.
  pose proof (ig_blank G E) as BL. destruct (@blank_inv (igrammar G) E (itable G E) BL) as [I0 S0].
  assert (L0 : Lay (igrammar G) E (own G) B bad [] (itable G E)).
  { destruct S0 as (_ & C0 & K0). split; auto.
    - intros y e t Ly Ey Et St. destruct (blank_at BL Et) as [->|(Q & _)]; [discriminate|lia].
    - intros y t Et _ r ->. destruct (blank_at BL Et) as [Q|(_ & s & Q)]; discriminate.
    - intros rl r Irl _ Et. destruct (blank_at BL Et) as [Q|(_ & s & Q)]; discriminate.
    - intros y e r Ly Ey Et. destruct (blank_at BL Et) as [Q|(_ & s & Q)]; discriminate.
    - intros y e t Ly Ey Et _ St. destruct (blank_at BL Et) as [->|(Q & _)]; [discriminate|lia]. }
  assert (G0 : KB (igrammar G) E B (itable G E)).
  { split; [split|].
    - intros j t Lj Ej Nt. destruct (blank_at BL Ej) as [->|(Q & _)]; [congruence|lia].
    - intros j l us _ SU Ej. destruct (blank_at BL Ej) as [Q|(_ & s & Q)]; [discriminate Q|]. injection Q as ->. destruct (proj2 SU s eq_refl).
    - intros j r Ej. destruct (blank_at BL Ej) as [Q|(_ & s & Q)]; discriminate Q. }
  destruct (@surface_ok (igrammar G) E HG (own G) HO fuel (rules (igrammar G)) (mkT (itable G E) false) st1 (incl_refl _) I0 H1) as (I1 & X1 & _ & KN).
  pose proof (@surface_shape (igrammar G) E HG (own G) HO fuel (rules (igrammar G)) (mkT (itable G E) false) st1 (incl_refl _) I0 H1 S0) as S1.
  pose proof (@surface_good (igrammar G) E HG (own G) HO HF rk B bad HL' HBB HB fuel (rules (igrammar G)) (mkT (itable G E) false) st1 (incl_refl _) I0 H1 E1 L0 G0) as [G1 _].
  assert (KN' : forall rl, In rl (rules (igrammar G)) -> known_ty (tys st1) (rexpr rl)) by (intros rl Irl; exact (KN rl rl Irl (find_self HF Irl))).
  pose proof (@unrec_good (igrammar G) E HF B HB st1 st2 G1 KN' H2) as G2.
  destruct (@inference_keeps (igrammar G) E HG (own G) HO HF (fun _ => False) (KB (igrammar G) E B) fuel st1 st2 st3) as (D3 & K3 & DN).
  - intros f j st t st' D K S NE. destruct (nth_error (tys st) j) as [u|] eqn:Ej.
    + destruct u as [|r| | |u]; try (destruct f as [|f]; [discriminate S|]; cbn [sexpr] in S; rewrite (tget_some Ej) in S; cbn [wbind] in S; injection S as <- <-; exact K).
      assert (Lj : j < length (exprs (igrammar G)) - 1).
      { assert (LT : j < length (tys st)) by (apply nth_error_Some; congruence). rewrite (iv_len (di_inv D)) in LT. destruct (Nat.eq_dec j (length (exprs (igrammar G)) - 1)) as [->|]; [|lia].
        destruct (iv_span (di_inv D)) as (s & ES). rewrite (iv_len (di_inv D)) in ES. congruence. }
      refine (proj1 (@sexpr_good (igrammar G) E HG (own G) HO HF rk B bad HL' HBB HB f [] j st t st' _ _ (di_inv D) _ Lj S NE (di_rec D) K)).
      * constructor.
      * exact (di_roots D).
      * exact I.
    + destruct f as [|f]; [discriminate S|]. cbn [sexpr] in S. unfold tget in S. rewrite Ej in S. discriminate S.
  - intros T j p D [[K A] R] KP U. assert (Lj : j < length T) by (rewrite (iv_len (di_inv D)); pose proof (kid_lt HG KP); destruct KP as [Lp _]; lia).
    split; [split; [exact (KI_unit HG (iv_len (di_inv D)) K KP U)|exact (AI_unit Lj A)]|].
    intros y r Ey. rewrite nth_update in Ey by exact Lj. destruct (y =? j); [discriminate Ey|exact (R y r Ey)].
  - intros T j s D [[K A] R] _ Lj Ej KP. split; [split; [exact (KI_rust K Lj Ej KP)|exact (AI_rust Lj K Ej A)]|].
    assert (LT : j < length T) by (apply nth_error_Some; congruence). intros y r Ey. rewrite nth_update in Ey by exact LT. destruct (y =? j); [discriminate Ey|exact (R y r Ey)].
  - exact I1.
  - exact S1.
  - exact KN'.
  - exact H2.
  - intros y e t _ _ _ _ _ [].
  - exact G2.
  - exact H3.
  - exact E3.
  - exists (tys st3). split; [|split; [exact (iv_len (di_inv D3))|split; [exact (proj1 K3)|split; [exact (di_rec D3)|]]]].
    + intros j u Ej. exact (proj2 (reduce_finals_at H4) j u Ej).
    + intros j Lj. apply (dn_known (DN j ltac:(rewrite ig_last; exact Lj))).
Qed.
Theorem final_kinds E fuel G G' rk B bad : well_built G -> type_inference E fuel G = WOk (Some G') -> plain_rules G E rk B bad ->
  forall i, i < length (exprs G) -> (forall p e, nth_error (exprs G) p = Some e -> In i (children e) -> ty_of G' p <> Some TUnit) ->
  exists k, akind (igrammar G) (ret_of E) B i k /\ is_unit G' i = voidb k.
Proof.
  intros WB H HL i Li NP. destruct (final_table WB H HL) as (T & FIN & LT & [K3 _] & NR & KN).
  assert (Li' : i < length (exprs (igrammar G)) - 1) by (rewrite ig_last; exact Li). destruct (KN i Li) as (t & Et & Nt).
  assert (ISU : is_unit G' i = is_unit_kind t).
  { destruct (FIN i t Et) as (w & Ew & RF). unfold is_unit, ty_of. rewrite Ew. destruct t as [| | | |[]]; cbn in RF; try discriminate RF; injection RF as <-; reflexivity. }
  assert (NOU : forall p, kid (igrammar G) p i -> ~ unit_at T p).
  { intros p (Lp & e & Ep & Ic) (u & Eu & Uu). rewrite ig_last in Lp. rewrite ig_low in Ep by exact Lp. apply (NP p e Ep Ic). destruct (FIN p u Eu) as (w & Ew & RF).
    unfold ty_of. rewrite Ew. destruct u as [| | | |[]]; try discriminate Uu; cbn in RF; congruence. }
  rewrite ISU. destruct (K3 i t Li' Et Nt (NR i t Et)) as [(k & C & A)|[(A & (s & ->) & _)|(_ & p & Kp & U)]].
  - exists k. split; [exact A|exact (cls_unit C)].
  - exists KForeign. split; [exact A|reflexivity].
  - exfalso. exact (NOU p Kp U).
Qed.
(** A choice of a type Oak knows with a branch of a Rust type has foreign and other branches. *)
Definition solid_kind (u : ty) : kind := match u with TTuple _ => KTuple | _ => KData end.
Lemma alt_solid ks u : alt_kind ks = solid_kind u -> In (solid_kind u) ks.
Proof.
  unfold alt_kind. destruct (existsb tupleb ks) eqn:T; [intros <-; apply EXT, T|]. destruct (existsb datab ks) eqn:D; [intros <-; apply EXD, D|]. destruct (existsb rustb ks); [destruct u; discriminate|].
  destruct (forallb foreignb ks); [destruct u; discriminate|]. destruct (existsb invb ks); destruct u; discriminate.
Qed.
Theorem final_alts E fuel G G' rk B bad : well_built G -> type_inference E fuel G = WOk (Some G') -> plain_rules G E rk B bad ->
  forall i l j us s, nth_error (exprs G) i = Some (EAlt l) -> In j l -> solid us -> ty_of G' i = Some us -> ty_of G' j = Some (TRust s) ->
  akind (igrammar G) (ret_of E) B j KForeign /\ exists j', In j' l /\ akind (igrammar G) (ret_of E) B j' (solid_kind us).
Proof.
  intros WB H HL i l j us s Ei Ij SU Ti Tj. destruct (final_table WB H HL) as (T & FIN & LT & [K3 A3] & NR & KN).
  assert (Li : i < length (exprs G)) by (apply nth_error_Some; congruence). assert (Li' : i < length (exprs (igrammar G)) - 1) by (rewrite ig_last; exact Li).
  assert (Lj : j < i) by (pose proof (wb_children WB Ei) as F; rewrite Forall_forall in F; exact (F j Ij)).
  assert (Ei' : expr_of (igrammar G) i = Some (EAlt l)) by (rewrite ig_low by exact Li; exact Ei).
  destruct (KN i Li) as (t & Et & Nt). destruct (FIN i t Et) as (w & Ew & RF). unfold ty_of in Ti. assert (w = us) by congruence. subst w.
  assert (t = IRegular us) as ->.
  { destruct t; cbn in RF; try discriminate RF; injection RF as <-; try reflexivity; first [destruct (proj1 SU eq_refl)|destruct (proj2 SU _ eq_refl)]. }
  destruct (KN j ltac:(lia)) as (u & Eu & Nu). destruct (FIN j u Eu) as (w & Ew' & RF'). unfold ty_of in Tj. assert (w = TRust s) by congruence. subst w.
  split.
  - destruct u as [| | | |v]; cbn in RF'; try discriminate RF'.
    + destruct (K3 j IExternal ltac:(lia) Eu Nu eq_refl) as [(k & C & A)|[(A & _)|(Q & _)]]; [cbn in C; injection C as <-; exact A|exact A|discriminate Q].
    + injection RF' as ->. exact (proj2 (A3 i l us Ei' SU Et j Ij) s Eu).
  - destruct (K3 i _ Li' Et Nt eq_refl) as [(k & C & A)|[(_ & (s' & Q) & _)|(Q & _)]].
    2: injection Q as ->; destruct (proj2 SU s' eq_refl).
    2: destruct us; try discriminate Q; destruct (proj1 SU eq_refl).
    assert (k = solid_kind us) as -> by (destruct us; cbn in C; try (injection C as <-; reflexivity); [destruct (proj1 SU eq_refl)|destruct (proj2 SU _ eq_refl)]).
    assert (X : forall k, akind (igrammar G) (ret_of E) B i k -> k = solid_kind us -> exists j', In j' l /\ akind (igrammar G) (ret_of E) B j' (solid_kind us)); [|exact (X _ A eq_refl)].
    clear A C. intros k A. destruct A as [i e k Ee C|i id rl k Ee F A|i id rl Ee F BI|i l0 ks Ee AK|i l0 ks Ee AK|i c k Ee A|i c k Ee A|i c k Ee A|i c k Ee A]; intros Q; rewrite Ei' in Ee; injection Ee as Ee; subst; try discriminate C; try discriminate Ee.
    apply alt_solid in Q. clear - Q AK. induction AK as [|c l k ks A AK IH]; [destruct Q|]. destruct Q as [->|Q]; [exists c; cbn; auto|].
    destruct (IH Q) as (j' & I & BI). exists j'. cbn. auto.
Qed.
