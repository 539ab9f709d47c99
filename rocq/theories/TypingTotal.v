(** Type inference terminates, and where it may panic. *)
From Verif Require Import Base Grammar WellFormed Analysis AnalysisFacts Typing TypeRules SurfaceFacts RefFacts.
Set Implicit Arguments. Unset Strict Implicit.
Open Scope string_scope. Open Scope nat_scope. Open Scope list_scope.

(** ---------------- tables without cycle ---------------- *)
Definition settled_at (T : list ity) (j : nat) : Prop := exists u, nth_error T j = Some u /\ settledb u = true.
Definition settled_count (T : list ity) : nat := length (filter settledb T).
Lemma count_le T : settled_count T <= length T.
Proof. unfold settled_count. induction T as [|t T IH]; cbn; [lia|]. destruct (settledb t); cbn; lia. Qed.
Lemma count_mono T : forall T', length T' = length T -> (forall j, settled_at T j -> settled_at T' j) -> settled_count T <= settled_count T'.
Proof.
  unfold settled_count. induction T as [|t T IH]; intros [|t' T'] L H; cbn in *; try discriminate; [lia|].
  assert (X : length (filter settledb T) <= length (filter settledb T')). { apply IH; [lia|]. intros j (u & Eu & Su). exact (H (S j) (ex_intro _ u (conj Eu Su))). }
  destruct (settledb t) eqn:S1.
  - destruct (H 0 (ex_intro _ t (conj eq_refl S1))) as (u & Eu & Su). cbn in Eu. injection Eu as <-. rewrite Su. cbn. lia.
  - destruct (settledb t'); cbn; lia.
Qed.
Lemma count_strict T : forall T' x, length T' = length T -> (forall j, settled_at T j -> settled_at T' j) -> settled_at T' x -> ~ settled_at T x ->
  settled_count T < settled_count T'.
Proof.
  induction T as [|t T IH]; intros [|t' T'] x L H HX NX; cbn in *; try discriminate.
  { destruct HX as (u & Eu & _). destruct x; discriminate. }
  assert (H' : forall j, settled_at T j -> settled_at T' j) by (intros j (u & Eu & Su); exact (H (S j) (ex_intro _ u (conj Eu Su)))).
  pose proof (@count_mono T T' ltac:(lia) H') as LE. unfold settled_count in *. cbn [filter].
  destruct x as [|x].
  - destruct HX as (u & Eu & Su). cbn in Eu. injection Eu as <-. rewrite Su. destruct (settledb t) eqn:S1; [destruct NX; exists t; auto|]. cbn. lia.
  - assert (X : length (filter settledb T) < length (filter settledb T')). { apply (IH T' x); [lia|exact H'| |]; [exact HX|exact NX]. }
    destruct (settledb t) eqn:S1.
    + destruct (H 0 (ex_intro _ t (conj eq_refl S1))) as (u & Eu & Su). cbn in Eu. injection Eu as <-. rewrite Su. cbn. lia.
    + destruct (settledb t'); cbn; lia.
Qed.

Section Table.
Variable G : grammar.

Definition rule_declared (id : string) : Prop := exists rl, find_rule G id = Some rl.
Definition recok (t : ity) : Prop :=
  match t with
  | IRec r => r <> [] /\ Forall (fun p => snd p <> [] /\ Forall rule_declared (snd p)) r
  | IRegular (TTuple []) => False
  | _ => True
  end.
(** A type without components. *)
Definition plain (t : ity) : bool := match t with IRec _ | IRegular (TTuple _) | IRegular (TList _) | IRegular (TOptional _) => false | _ => true end.
Lemma plain_refs t : plain t = true -> refs t = []. Proof. destruct t as [| | | |[]]; cbn; congruence. Qed.
(** A type whose components are settled, and that is no empty tuple, and whose recursive paths are made of declared rules. *)
Definition good (T : list ity) (t : ity) : Prop := Forall (settled_at T) (refs t) /\ recok t.
Definition ranked (T : list ity) (rk : nat -> nat) : Prop := forall x t, nth_error T x = Some t -> settledb t = true ->
  rk x < settled_count T /\ Forall (fun j => rk j < rk x) (refs t).
Record W (T : list ity) : Prop := {
  w_len : length T = length (exprs G);
  w_good : forall x t, nth_error T x = Some t -> good T t;
  w_rank : exists rk, ranked T rk
}.

Lemma good_mono T T' t : (forall j, settled_at T j -> settled_at T' j) -> good T t -> good T' t.
Proof. intros M [A B]. split; [|exact B]. eapply Forall_impl; [|exact A]. exact M. Qed.
Lemma good_const T t : plain t = true -> good T t.
Proof. intros P. split; [rewrite (plain_refs P); constructor|]. destruct t as [| | | |[]]; cbn in *; try discriminate; exact I. Qed.

(** Types may be made more precise, or replaced by types without components. *)
Lemma fill T T' : W T -> length T' = length T ->
  (forall x t, nth_error T x = Some t -> exists t', nth_error T' x = Some t' /\
     (t' = t \/ (settledb t = false /\ good T t') \/ (settledb t' = true /\ plain t' = true))) ->
  W T' /\ forall j, settled_at T j -> settled_at T' j.
Proof.
  intros HW L H.
  assert (M : forall j, settled_at T j -> settled_at T' j).
  { intros j (u & Eu & Su). destruct (H j u Eu) as (u' & Eu' & [->|[[S1 _]|[S1 _]]]); [exists u; auto|congruence|exists u'; auto]. }
  split; [|exact M].
  assert (BACK : forall x t', nth_error T' x = Some t' -> exists t, nth_error T x = Some t /\
     (t' = t \/ (settledb t = false /\ good T t') \/ (settledb t' = true /\ plain t' = true))).
  { intros x t' Et'. destruct (nth_error T x) as [t|] eqn:Et.
    - destruct (H x t Et) as (t'' & Et'' & D). assert (t'' = t') by congruence. subst t''. exists t. auto.
    - exfalso. apply nth_error_None in Et. assert (x < length T') by (apply nth_error_Some; congruence). lia. }
  split.
  - rewrite L. exact (w_len HW).
  - intros x t' Et'. destruct (BACK x t' Et') as (t & Et & [->|[[S1 Gd]|[S1 R]]]).
    + exact (good_mono M (w_good HW Et)).
    + exact (good_mono M Gd).
    + apply good_const, R.
  - destruct (w_rank HW) as (rk & RK). exists (fun x => match nth_error T x with Some t => if settledb t then rk x else settled_count T | None => 0 end).
    pose proof (count_mono L M) as CM.
    assert (OLD : forall j, settled_at T j -> (match nth_error T j with Some t => if settledb t then rk j else settled_count T | None => 0 end) = rk j).
    { intros j (u & Eu & Su). rewrite Eu, Su. reflexivity. }
    intros x t' Et' St'. destruct (BACK x t' Et') as (t & Et & D). rewrite Et. destruct (settledb t) eqn:S1.
    + destruct (RK x t Et S1) as [B F]. split; [lia|]. destruct D as [->|[[S2 _]|[_ R]]]; [|congruence|rewrite (plain_refs R); constructor].
      apply Forall_forall. intros j Ij. destruct (w_good HW Et) as [GS _]. rewrite Forall_forall in GS, F. rewrite (OLD j (GS j Ij)). exact (F j Ij).
    + split.
      * apply (@count_strict T T' x L M); [exists t'; auto|]. intros (u & Eu & Su). congruence.
      * destruct D as [->|[[_ [GS _]]|[_ R]]]; [congruence| |rewrite (plain_refs R); constructor]. apply Forall_forall. intros j Ij. rewrite Forall_forall in GS.
        pose proof (GS j Ij) as Sj. rewrite (OLD j Sj). destruct Sj as (u & Eu & Su). exact (proj1 (RK j u Eu Su)).
Qed.
Lemma fill_one T i t u : W T -> nth_error T i = Some u -> (settledb u = false /\ good T t) \/ (settledb t = true /\ plain t = true) ->
  W (update T i t) /\ forall j, settled_at T j -> settled_at (update T i t) j.
Proof.
  intros HW Ei D. assert (L : i < length T) by (apply nth_error_Some; congruence). apply fill; [exact HW|apply length_update, L|].
  intros x v Ev. rewrite nth_update by exact L. destruct (Nat.eqb_spec x i) as [->|N]; [|eauto]. exists t. split; [reflexivity|]. right.
  assert (v = u) by congruence. subst v. exact D.
Qed.

(** ---------------- comparisons terminate ---------------- *)
Lemma tget_total T j : settled_at T j -> exists u, tget T j = WOk u /\ nth_error T j = Some u /\ settledb u = true.
Proof. intros (u & Eu & Su). exists u. rewrite (tget_some Eu). auto. Qed.
Lemma syn_eq_total T rk : W T -> ranked T rk -> forall k t1 t2, Forall (settled_at T) (refs t1) -> Forall (settled_at T) (refs t2) ->
  Forall (fun j => rk j < k) (refs t1) -> exists b, syn_eq (S k) T t1 t2 = WOk b.
Proof.
  intros HW RK. induction k as [|k IH]; intros t1 t2 F1 F2 F3.
  - assert (R : refs t1 = []) by (destruct (refs t1); [reflexivity|]; inversion F3; lia).
    destruct t1 as [| | | |[| |j|j|l|s]]; cbn in R; try discriminate; cbn [syn_eq]; try (destruct t2 as [| | | |[]]; eauto; fail).
    subst l. destruct t2 as [| | | |[| |j|j|l|s]]; eauto. destruct (length (@nil nat) =? length l); eauto.
  - assert (AT : forall i j, settled_at T i -> settled_at T j -> rk i < S k ->
      exists b, wbind (tget T i) (fun a => wbind (tget T j) (fun b => syn_eq (S k) T a b)) = WOk b).
    { intros i j Si Sj Ri. destruct (tget_total Si) as (u & -> & Eu & Su). destruct (tget_total Sj) as (v & -> & Ev & Sv). cbn [wbind].
      destruct (w_good HW Eu) as [Gu _]. destruct (w_good HW Ev) as [Gv _]. apply IH; [exact Gu|exact Gv|]. destruct (RK i u Eu Su) as [_ F].
      eapply Forall_impl; [|exact F]. cbv beta. intros a. lia. }
    destruct t1 as [| | | |[| |j|j|l|s]]; destruct t2 as [| | | |[| |j'|j'|l'|s']]; try (cbn [syn_eq]; eauto; fail).
    + cbn [refs] in *. inversion F1; inversion F2; inversion F3; subst. destruct (AT j j') as (b & Hb); [assumption|assumption|lia|]. exists b. exact Hb.
    + cbn [refs] in *. inversion F1; inversion F2; inversion F3; subst. destruct (AT j j') as (b & Hb); [assumption|assumption|lia|]. exists b. exact Hb.
    + rewrite syn_eq_tuple. destruct (length l =? length l'); [|eauto]. cbn [refs] in *. clear - F1 F2 F3 AT. revert l' F2. induction l as [|i l IHl]; intros l' F2; [cbn; eauto|].
      destruct l' as [|j l']; [cbn; eauto|]. inversion F1; inversion F2; inversion F3; subst. cbn [all_eq].
      destruct (AT i j) as (b & Hb); [assumption|assumption|lia|]. cbv beta in Hb. rewrite Hb. cbn [wbind]. destruct b; [|eauto]. apply IHl; assumption.
Qed.
Lemma external_total T rk : W T -> ranked T rk -> forall k t, Forall (settled_at T) (refs t) -> Forall (fun j => rk j < k) (refs t) ->
  exists b, contains_external (S k) T t = WOk b.
Proof.
  intros HW RK. induction k as [|k IH]; intros t F1 F3.
  - assert (R : refs t = []) by (destruct (refs t); [reflexivity|]; inversion F3; lia).
    destruct t as [| | | |[| |j|j|l|s]]; cbn in R; try discriminate; cbn [contains_external]; eauto. subst l. cbn. eauto.
  - assert (AT : forall i u, nth_error T i = Some u -> settledb u = true -> rk i < S k -> exists b, contains_external (S k) T u = WOk b).
    { intros i u Eu Su Ri. destruct (w_good HW Eu) as [Gu _]. apply IH; [exact Gu|]. destruct (RK i u Eu Su) as [_ F]. eapply Forall_impl; [|exact F]. cbv beta. intros a. lia. }
    destruct t as [| | | |[| |j|j|l|s]]; try (cbn [contains_external]; eauto; fail).
    + cbn [refs] in *. inversion F1 as [|? ? Sj]; inversion F3; subst. destruct (tget_total Sj) as (u & Tu & Eu & Su). destruct (AT j u Eu Su) as (b & Hb); [lia|].
      exists b. change (wbind (tget T j) (contains_external (S k) T) = WOk b). rewrite Tu. exact Hb.
    + cbn [refs] in *. inversion F1 as [|? ? Sj]; inversion F3; subst. destruct (tget_total Sj) as (u & Tu & Eu & Su). destruct (AT j u Eu Su) as (b & Hb); [lia|].
      exists b. change (wbind (tget T j) (contains_external (S k) T) = WOk b). rewrite Tu. exact Hb.
    + assert (TS : exists ts, tgets T l = WOk ts /\ Forall (fun u => exists b, contains_external (S k) T u = WOk b) ts).
      { cbn [refs] in *. clear - F1 F3 AT. induction l as [|i l IHl]; [exists []; split; [reflexivity|constructor]|]. inversion F1 as [|? ? Si]; inversion F3; subst.
        destruct IHl as (ts & Ht & Ft); [assumption|assumption|]. destruct (tget_total Si) as (u & Tu & Eu & Su). destruct (AT i u Eu Su) as (b & Hb); [lia|].
        exists (u :: ts). cbn [tgets]. rewrite Tu. cbn [wbind]. rewrite Ht. split; [reflexivity|]. constructor; [eauto|exact Ft]. }
      destruct TS as (ts & Ht & Ft). remember (S k) as k' eqn:Ek. cbn [contains_external]. rewrite Ht. cbn [wbind]. clear - Ft.
      induction Ft as [|u ts (b & Hb) Ft IHt]; [eauto|]. rewrite Hb. cbn [wbind]. destruct b; [eauto|exact IHt].
Qed.
Lemma rank_below T rk t : W T -> ranked T rk -> good T t -> Forall (fun j => rk j < length (exprs G)) (refs t).
Proof.
  intros HW RK [F _]. eapply Forall_impl; [|exact F]. intros j (u & Eu & Su). destruct (RK j u Eu Su) as [B _]. pose proof (count_le T) as C. rewrite (w_len HW) in C. lia.
Qed.
Lemma cmp_total T k t1 t2 : W T -> length (exprs G) < k -> good T t1 -> good T t2 -> exists b, syn_eq k T t1 t2 = WOk b.
Proof.
  intros HW L G1 G2. destruct (w_rank HW) as (rk & RK). destruct k as [|k]; [lia|]. apply (syn_eq_total HW RK); [exact (proj1 G1)|exact (proj1 G2)|].
  eapply Forall_impl; [|exact (rank_below HW RK G1)]. cbv beta. intros j. lia.
Qed.
Lemma ext_total T k t : W T -> length (exprs G) < k -> good T t -> exists b, contains_external k T t = WOk b.
Proof.
  intros HW L G1. destruct (w_rank HW) as (rk & RK). destruct k as [|k]; [lia|]. apply (external_total HW RK); [exact (proj1 G1)|].
  eapply Forall_impl; [|exact (rank_below HW RK G1)]. cbv beta. intros j. lia.
Qed.

(** ---------------- reductions answer ---------------- *)
Lemma recok_union T r1 r2 : recok (IRec r2) -> Forall (fun p => snd p <> [] /\ Forall rule_declared (snd p)) r1 ->
  T = rec_union r1 r2 -> Forall (fun p => snd p <> [] /\ Forall rule_declared (snd p)) T.
Proof.
  intros R2 F1 ->. destruct R2 as [_ F2]. apply Forall_forall. intros p Ip. apply in_rec_union in Ip. rewrite Forall_forall in F1, F2. destruct Ip; auto.
Qed.
Lemma union_not_nil r2 : forall r1, r2 <> [] \/ r1 <> [] -> rec_union r1 r2 <> [].
Proof.
  intros r1 H Q. assert (X : forall p, ~ In p (rec_union r1 r2)) by (rewrite Q; intros p []). destruct H as [H|H].
  - destruct r2 as [|p r2]; [congruence|]. apply (X p), in_rec_union. right. left. reflexivity.
  - destruct r1 as [|p r1]; [congruence|]. apply (X p), in_rec_union. left. left. reflexivity.
Qed.
Lemma poly_recok r : recok (IRec r) -> recok (IRec (to_poly r)).
Proof.
  intros [N F]. split; [destruct r; [congruence|discriminate]|]. unfold to_poly. apply Forall_map.
  eapply Forall_impl; [|exact F]. intros p Hp. exact Hp.
Qed.
Lemma known_cases T i : known_ty T i -> settled_at T i \/ exists r, nth_error T i = Some (IRec r).
Proof. intros (u & Eu & Nu). destruct u; try congruence; try (left; eexists; split; [exact Eu|reflexivity]). right. eauto. Qed.
Lemma tuple_total T l : W T -> l <> [] -> Forall (known_ty T) l -> exists t, reduce_tuple T l = WOk t /\ good T t /\ t <> IInfer.
Proof.
  intros HW NE F. unfold reduce_tuple. destruct l as [|a l'] eqn:EL; [congruence|]. rewrite <- EL in *. clear a l' EL NE.
  assert (B : Forall (fun i => i < length T) l). { eapply Forall_impl; [|exact F]. intros i (u & Eu & _). apply nth_error_Some. congruence. }
  rewrite (inlining_ok B). cbn [wbind].
  assert (U : Forall (fun j => settled_at T j \/ exists r, nth_error T j = Some (IRec r)) (flat_map (unpack T) l)).
  { apply Forall_flat_map. eapply Forall_impl; [|exact F]. intros i K. unfold unpack. destruct K as (u & Eu & Nu). rewrite Eu.
    assert (X : Forall (fun j => settled_at T j \/ exists r, nth_error T j = Some (IRec r)) [i]).
    { constructor; [|constructor]. apply known_cases. exists u. auto. }
    destruct u as [| | | |[| |j|j|js|s]]; try exact X. destruct (w_good HW Eu) as [S1 _]. eapply Forall_impl; [|exact S1]. auto. }
  assert (B' : Forall (fun i => i < length T) (flat_map (unpack T) l)).
  { eapply Forall_impl; [|exact U]. intros j [(u & Eu & _)|(r & Eu)]; apply nth_error_Some; congruence. }
  destruct (scan_ok B' [] false) as (r & b & ES & P & _). unfold tuple_rec. rewrite ES. cbn [wbind fst snd].
  assert (P' : forall p, In p r <-> exists j q, In j (flat_map (unpack T) l) /\ nth_error T j = Some (IRec q) /\ In p q).
  { intros p. rewrite P. cbn [In]. split.
    - intros [[]|I1]. apply in_flat_map in I1. destruct I1 as (u & Iu & Ip). apply in_flat_map in Iu. destruct Iu as (j & Ij & Iu).
      destruct (nth_error T j) as [v|] eqn:Ej; [|destruct Iu]. destruct Iu as [<-|[]]. destruct v; try destruct Ip. exists j, r0. auto.
    - intros (j & q & Ij & Ej & Ip). right. apply in_flat_map. exists (IRec q). split; [|exact Ip]. apply in_flat_map. exists j. split; [exact Ij|]. rewrite Ej. left. reflexivity. }
  destruct r as [|p0 r0] eqn:ER.
  - assert (U' : Forall (settled_at T) (flat_map (unpack T) l)).
    { apply Forall_forall. intros j Ij. rewrite Forall_forall in U. destruct (U j Ij) as [Sj|(q & Ej)]; [exact Sj|]. exfalso.
      destruct (proj2 (w_good HW Ej)) as [NQ _]. destruct q as [|p q]; [congruence|]. apply (proj2 (P' p)). exists j, (p :: q). cbn. auto. }
    rewrite (drop_ok _ B'). cbn [wbind]. set (l1 := filter _ (flat_map (unpack T) l)).
    assert (U1 : Forall (settled_at T) l1) by (apply Forall_forall; intros j Ij; apply filter_In in Ij; rewrite Forall_forall in U'; apply U', Ij).
    assert (B1 : Forall (fun i => i < length T) l1) by (eapply Forall_impl; [|exact U1]; intros j (u & Eu & _); apply nth_error_Some; congruence).
    destruct l1 as [|x l1'] eqn:E1; [exists IInvisible; split; [reflexivity|]; split; [apply good_const; reflexivity|discriminate]|]. rewrite <- E1 in *. clear x l1' E1.
    rewrite (drop_ok _ B1). cbn [wbind]. set (l2 := filter _ l1).
    assert (U2 : Forall (settled_at T) l2) by (apply Forall_forall; intros j Ij; apply filter_In in Ij; rewrite Forall_forall in U1; apply U1, Ij).
    destruct l2 as [|x [|y l2']].
    + exists (IRegular TUnit). split; [reflexivity|]. split; [apply good_const; reflexivity|discriminate].
    + inversion U2 as [|? ? Sx]; subst. destruct (tget_total Sx) as (u & -> & Eu & Su). exists u. split; [reflexivity|]. split; [exact (w_good HW Eu)|]. intros ->. discriminate.
    + exists (IRegular (TTuple (x :: y :: l2'))). split; [reflexivity|]. split; [|discriminate]. split; [exact U2|exact I].
  - rewrite <- ER in *. clear ES P.
    assert (OKR : recok (IRec r)).
    { split; [rewrite ER; discriminate|]. apply Forall_forall. intros p Ip. apply P' in Ip. destruct Ip as (j & q & _ & Ej & Ip).
      destruct (proj2 (w_good HW Ej)) as [_ FQ]. rewrite Forall_forall in FQ. exact (FQ p Ip). }
    assert (Q : (match r with [] => None | r1 => Some (IRec (if b then to_poly r1 else r1)) end) = Some (IRec (if b then to_poly r else r))) by (rewrite ER; reflexivity).
    rewrite ER in Q |- *. eexists. split; [reflexivity|]. rewrite <- ER. split; [|discriminate]. split; [constructor|]. destruct b; [apply poly_recok, OKR|exact OKR].
Qed.
Lemma unary_total T i t : W T -> known_ty T i -> refs t = [i] -> is_rec_ty t = false -> exists t', reduce_unary T i t = WOk t' /\ good T t' /\ t' <> IInfer.
Proof.
  intros HW (u & Eu & Nu) R NR. unfold reduce_unary. rewrite (tget_some Eu). cbn [wbind].
  assert (D : settledb u = true -> good T t). { intros Su. split; [rewrite R; constructor; [exists u; auto|constructor]|]. destruct t as [| | | |[| |j|j|l|s]]; try discriminate; try exact I. cbn in R. subst l. exact I. }
  assert (NT : t <> IInfer) by (intros ->; discriminate).
  destruct u as [|r| | |u]; try congruence; eexists; (split; [reflexivity|]); try (split; [apply D; reflexivity|exact NT]).
  - split; [|discriminate]. split; [constructor|]. apply poly_recok. exact (proj2 (w_good HW Eu)).
  - split; [apply good_const; reflexivity|discriminate].
Qed.
(** What the walk hands to [reduce]. *)
Definition raw_good (T : list ity) (t : ity) : Prop :=
  match t with
  | IRegular (TOptional j) | IRegular (TList j) => known_ty T j
  | IRegular (TTuple l) => l <> [] /\ Forall (known_ty T) l
  | IInfer => False
  | t => recok t
  end.
Lemma settled_known T j : settled_at T j -> known_ty T j.
Proof. intros (u & Eu & Su). exists u. split; [exact Eu|]. intros ->. discriminate. Qed.
Lemma good_raw T t : t <> IInfer -> good T t -> raw_good T t.
Proof.
  intros N [S1 R]. destruct t as [| | | |[| |j|j|l|s]]; cbn [raw_good refs] in *; try exact R; try congruence.
  - inversion S1; subst. apply settled_known. assumption.
  - inversion S1; subst. apply settled_known. assumption.
  - split; [intros ->; exact R|]. eapply Forall_impl; [|exact S1]. intros j. apply settled_known.
Qed.
Lemma reduce_total T t : W T -> raw_good T t -> exists t', reduce T t = WOk t' /\ good T t' /\ t' <> IInfer.
Proof.
  intros HW R. destruct t as [|r| | |[| |j|j|l|s]]; cbn [reduce raw_good] in *; try contradiction;
    try (eexists; split; [reflexivity|]; split; [split; [constructor|exact R]|discriminate]).
  - apply unary_total; auto.
  - apply unary_total; auto.
  - destruct R as [NE F]. apply tuple_total; auto.
Qed.
Section Sums.
Variable T : list ity.
Variable fuel : nat.
Hypothesis HW : W T.
Hypothesis HC : length (exprs G) < fuel.
Lemma contained_total t : good T t -> forall l, Forall (good T) l -> exists b, contained T fuel t l = WOk b.
Proof.
  intros Gt. induction 1 as [|a l Ga F IH]; cbn [contained]; [eauto|]. destruct (cmp_total HW HC Gt Ga) as (b & ->). cbn [wbind]. destruct b; eauto.
Qed.
Lemma sum_scan_total : forall ts r non, Forall (good T) ts -> Forall (good T) non -> (r <> [] -> recok (IRec r)) ->
  exists r' non', sum_scan T fuel ts r non = WOk (r', non') /\ Forall (good T) non' /\ (r' <> [] -> recok (IRec r')) /\
    (r' = [] /\ non' = [] -> r = [] /\ non = [] /\ ts = []) /\ (forall t, In t non' -> In t non \/ In t ts).
Proof.
  induction ts as [|t ts IH]; intros r non Fs Fn Hr; cbn [sum_scan].
  - exists r, non. split; [reflexivity|]. split; [exact Fn|]. split; [exact Hr|]. split; [tauto|auto].
  - inversion Fs as [|? ? Gt Fs']; subst.
    assert (STEP : is_rec_ty t = false -> exists r' non', wbind (contained T fuel t non) (fun b => sum_scan T fuel ts r (if b then non else non ++ [t])) = WOk (r', non') /\
      Forall (good T) non' /\ (r' <> [] -> recok (IRec r')) /\ (r' = [] /\ non' = [] -> r = [] /\ non = [] /\ t :: ts = []) /\ (forall u, In u non' -> In u non \/ In u (t :: ts))).
    { intros _. destruct (contained_total Gt Fn) as (b & Hb). rewrite Hb. cbn [wbind].
      assert (Fn' : Forall (good T) (if b then non else non ++ [t])) by (destruct b; [exact Fn|apply Forall_app; auto]).
      destruct (IH r _ Fs' Fn' Hr) as (r' & non' & A & B & C & D & I1). exists r', non'. split; [exact A|]. split; [exact B|]. split; [exact C|]. split.
      - intros Q. destruct (D Q) as (_ & Q2 & _). exfalso. destruct b.
        + subst non. cbn in Hb. discriminate.
        + destruct non; discriminate.
      - intros u Iu. destruct (I1 u Iu) as [X|X]; [|cbn; auto]. destruct b; [auto|]. apply in_app_or in X. destruct X as [X|[<-|[]]]; cbn; auto. }
    destruct t as [|q| | |t]; try exact (STEP eq_refl). clear STEP. destruct Gt as [_ Rq].
    assert (NQ : q <> []) by exact (proj1 Rq).
    destruct (IH (rec_union r q) non Fs' Fn) as (r' & non' & A & B & C & D & I1).
    { intros N. split; [exact N|]. refine (recok_union Rq _ eq_refl). destruct r as [|p r]; [constructor|]. exact (proj2 (Hr ltac:(discriminate))). }
    exists r', non'. split; [exact A|]. split; [exact B|]. split; [exact C|]. split; [|intros u Iu; destruct (I1 u Iu); cbn; auto].
    intros Q. destruct (D Q) as (Q1 & _). exfalso. refine (@union_not_nil q r _ Q1). auto.
Qed.
Lemma sum_total ts : ts <> [] -> Forall (good T) ts -> Forall (fun t => t <> IInfer) ts ->
  exists r, reduce_sum T fuel ts = WOk r /\ (forall t, r = Some t -> good T t /\ t <> IInfer /\ (In t ts \/ refs t = [])).
Proof.
  intros NE F NI. unfold reduce_sum. destruct ts as [|a ts'] eqn:EL; [congruence|]. rewrite <- EL in *. clear a ts' EL.
  destruct (@sum_scan_total ts [] [] F ltac:(constructor) ltac:(congruence)) as (r & non & -> & Fn & Hr & Z & IN). cbn [wbind fst snd].
  eexists. split; [reflexivity|]. intros t Q. unfold sum_verdict in Q. destruct (is_poly r); [discriminate|].
  assert (ONE : In t non -> good T t /\ t <> IInfer /\ (In t ts \/ refs t = [])).
  { intros It. destruct (IN t It) as [[]|It']. rewrite Forall_forall in F, NI. auto. }
  assert (REST : match non with [] => Some (IRec r) | _ => if forallb is_unit_kind non then Some IInvisible else None end = Some t ->
    good T t /\ t <> IInfer /\ (In t ts \/ refs t = [])).
  { clear Q. destruct non as [|x non]; intros Q.
    - injection Q as <-. assert (NR : r <> []) by (intros ->; destruct (Z (conj eq_refl eq_refl)) as (_ & _ & Z'); congruence). split; [|split; [discriminate|right; reflexivity]].
      split; [constructor|exact (Hr NR)].
    - destruct (forallb is_unit_kind (x :: non)); [|discriminate]. injection Q as <-. split; [apply good_const; reflexivity|split; [discriminate|right; reflexivity]]. }
  destruct non as [|x [|y [|z non]]]; try exact (REST Q).
  - apply ONE. injection Q as ->. left. reflexivity.
  - destruct (is_external x); [apply ONE; injection Q as ->; right; left; reflexivity|]. destruct (is_external y); [apply ONE; injection Q as ->; left; reflexivity|exact (REST Q)].
Qed.
End Sums.
Hypothesis HRB : forall rl, In rl (rules G) -> rexpr rl < length (exprs G).
Lemma first_total T ids : W T -> Forall rule_declared ids -> exists t, first_non_rec G T ids = WOk t /\ good T t /\ is_rec_ty t = false.
Proof.
  intros HW. induction 1 as [|id ids (rl & F) Fs IH]; cbn [first_non_rec]; [exists IInvisible; split; [reflexivity|]; split; [apply good_const; reflexivity|reflexivity]|]. rewrite F.
  destruct (nth_error T (rexpr rl)) as [t|] eqn:Et.
  2: { apply nth_error_None in Et. rewrite (w_len HW) in Et. pose proof (HRB (proj2 (find_rule_name F))). lia. }
  rewrite (tget_some Et). cbn [wbind]. destruct t as [|r| | |t]; try exact IH; (eexists; split; [reflexivity|]; split; [exact (w_good HW Et)|reflexivity]).
Qed.
Lemma reduce_rec_total T t : W T -> good T t -> exists t', reduce_rec G T t = WOk t' /\ good T t' /\ is_rec_ty t' = false /\ (is_rec_ty t = false -> t' = t).
Proof.
  intros HW Gt. destruct t as [|r| | |t]; try (eexists; split; [reflexivity|]; split; [exact Gt|split; reflexivity]). cbn [reduce_rec].
  destruct (is_poly r); [exists IInvisible; split; [reflexivity|]; split; [apply good_const; reflexivity|split; [reflexivity|discriminate]]|].
  destruct (proj2 Gt) as [_ F]. destruct (@first_total T (flat_map snd r) HW) as (t & A & B & C).
  - apply Forall_flat_map. eapply Forall_impl; [|exact F]. intros p [_ H]. exact H.
  - exists t. split; [exact A|]. split; [exact B|]. split; [exact C|discriminate].
Qed.
Lemma entry_total T id t : W T -> good T t -> t <> IInfer -> exists t', reduce_rec_entry_point G T id t = WOk t' /\ good T t' /\ (settledb t = true -> t' = t).
Proof.
  intros HW Gt N. destruct t as [|r| | |t]; try (eexists; split; [reflexivity|]; split; [exact Gt|reflexivity]); try congruence. cbn [reduce_rec_entry_point].
  destruct (proj2 Gt) as [NR F]. destruct r as [|[k p] r]; [congruence|]. inversion F as [|? ? [NP _] _]; subst. cbn [snd] in NP. destruct p as [|a p]; [congruence|].
  cbn [entry_point wbind]. destruct (a =? id)%string.
  - destruct (reduce_rec_total HW Gt) as (t' & A & B & _). exists t'. split; [exact A|]. split; [exact B|discriminate].
  - eexists. split; [reflexivity|]. split; [exact Gt|discriminate].
Qed.
End Table.

Lemma Forall2_at A B (R : A -> B -> Prop) l l' : Forall2 R l l' -> forall x a, nth_error l x = Some a -> exists b, nth_error l' x = Some b /\ R a b.
Proof. induction 1 as [|a b l l' H F IH]; intros [|x] c Ec; try discriminate; cbn in Ec; [|exact (IH x c Ec)]. injection Ec as <-. exists b. auto. Qed.
Lemma ity_eq_infer t : t = IInfer \/ t <> IInfer.
Proof. destruct t; auto; right; discriminate. Qed.

(** ---------------- the bottom-up visitor answers ---------------- *)
Section Visit.
Variable G : grammar.
Variable E : tenv.
Hypothesis HG : typable G.
Local Notation len := (length (exprs G)).
Local Notation nr := (length (rules G)).
Variable own : nat -> string.
Hypothesis HO : owned G own.
Hypothesis HC : len < cmp_fuel E.

(** The only panic: leaving a rule with the type of a rule that is still visited.  [trouble] tells what
    such a panic means; [J] and [Q] are invariants of the table and of the position. *)
Variable trouble : Prop.
Variable J : list string -> list ity -> Prop.
Variable Q : list string -> nat -> Prop.
Definition roots_known (T : list ity) : Prop := forall rl, In rl (rules G) -> known_ty T (rexpr rl).
Hypothesis J_visit : forall fuel path i st t st', path_ok G path -> Q path i -> J path (tys st) -> sexpr G E fuel path i st = WOk (t, st') -> J path (tys st').
Hypothesis Q_child : forall path i e j, expr_of G i = Some e -> In j (visits e) -> Q path i -> Q path j.
Hypothesis J_call : forall path T i id rl, expr_of G i = Some (ENT id) -> find_rule G id = Some rl -> ~ In id path -> nth_error T (rexpr rl) = Some IInfer ->
  (path = [] -> roots_known T) -> Q path i -> J path T -> Q (id :: path) (rexpr rl) /\ J (id :: path) T.
Hypothesis J_leave : forall path id rl T t, find_rule G id = Some rl -> ~ In id path -> path <> [] -> nth_error T (rexpr rl) = Some t -> t <> IInfer ->
  Q (id :: path) (rexpr rl) -> J (id :: path) T -> reduce_rec_entry_point G T id t = WOk IInfer -> trouble.

Definition cost (path : list string) (i : nat) : nat := (nr - length path) * len + i + 1.
Record before (path : list string) (i : nat) (T : list ity) : Prop := {
  bf_path : path_ok G path;
  bf_nodup : NoDup path;
  bf_index : i < len;
  bf_roots : path = [] -> roots_known T;
  bf_own : forall a rest, path = a :: rest -> own i = a;
  bf_span : known_ty T (len - 1);
  bf_w : W G T;
  bf_q : Q path i;
  bf_j : J path T
}.
Record after (path : list string) (i : nat) (T T' : list ity) (t : ity) : Prop := {
  af_frame : frame G own path i T T';
  af_w : W G T';
  af_known : forall j, known_ty T j -> known_ty T' j;
  af_settled : forall j, settled_at T j -> settled_at T' j;
  af_type : nth_error T' i = Some t;
  af_ne : t <> IInfer
}.
Definition answers (ve : list string -> nat -> tst -> wres (ity * tst)) (n : nat) : Prop := forall path i st, before path i (tys st) -> cost path i <= n ->
  (exists t st', ve path i st = WOk (t, st') /\ after path i (tys st) (tys st') t) \/ (ve path i st = WPanic /\ trouble).

Lemma path_short path : path_ok G path -> NoDup path -> length path <= nr.
Proof.
  intros PO ND. rewrite <- (map_length rname (rules G)). apply NoDup_incl_length; [exact ND|]. intros x Ix. unfold path_ok in PO. rewrite Forall_forall in PO.
  destruct (PO x Ix) as (rl & F). apply find_rule_name in F. destruct F as [<- I1]. apply in_map, I1.
Qed.
Lemma enter_cost path id rl n i : path_ok G path -> NoDup path -> find_rule G id = Some rl -> ~ In id path -> cost path i <= S n ->
  cost (id :: path) (rexpr rl) <= n.
Proof.
  intros PO ND F NI L. assert (X : length (id :: path) <= nr) by (apply path_short; [constructor; [eauto|exact PO]|constructor; auto]).
  pose proof (tg_rules HG (proj2 (find_rule_name F))) as B. unfold cost in *. cbn [length] in *. replace (nr - length path) with (S (nr - S (length path))) in L by lia. nia.
Qed.

Lemma rec_type_good path T id rl : find_rule G id = Some rl -> path_ok G path -> good G T (rec_type path id).
Proof.
  intros F PO. split; [constructor|]. split; [discriminate|]. constructor; [|constructor]. split; [discriminate|]. cbn [snd].
  constructor; [exists rl; exact F|].
  assert (SUB : forall l x, In x (take_while (fun r => negb (r =? id)%string) l) -> In x l).
  { induction l as [|a l IH]; intros x Hx; [exact Hx|]. cbn in Hx. destruct (a =? id)%string; cbn in Hx; [destruct Hx|]. destruct Hx as [<-|Hx]; cbn; auto. }
  apply Forall_forall. intros x Hx. apply SUB in Hx. unfold path_ok in PO. rewrite Forall_forall in PO. exact (PO x Hx).
Qed.

(** Entering a rule: what holds unless the type of an unfinished rule was taken. *)
Lemma srule_total k : answers (sexpr G E k) k -> forall path id rl st, find_rule G id = Some rl -> path_ok G path -> NoDup path -> W G (tys st) -> known_ty (tys st) (len - 1) ->
  (~ In id path -> nth_error (tys st) (rexpr rl) = Some IInfer -> cost (id :: path) (rexpr rl) <= k /\ Q (id :: path) (rexpr rl) /\ J (id :: path) (tys st)) ->
  (exists t st', srule G (sexpr G E k) path id st = WOk (t, st') /\ W G (tys st') /\ good G (tys st') t /\ (forall j, settled_at (tys st) j -> settled_at (tys st') j) /\
     ((t <> IInfer /\ (forall j, known_ty (tys st) j -> known_ty (tys st') j) /\ (path <> [] \/ tys st' = tys st -> away own path (tys st) (tys st'))) \/ (t = IInfer /\ (path <> [] -> trouble)))) \/
  (srule G (sexpr G E k) path id st = WPanic /\ trouble).
Proof.
  intros AN path id rl st F PO ND HW SP CALL. unfold srule. rewrite F. pose proof (tg_rules HG (proj2 (find_rule_name F))) as B.
  destruct (nth_error (tys st) (rexpr rl)) as [u|] eqn:Eu. 2: { apply nth_error_None in Eu. rewrite (w_len HW) in Eu. lia. }
  rewrite (tget_some Eu). cbn [wbind].
  assert (MEMO : u <> IInfer -> (exists t st', WOk (u, st) = WOk (t, st') /\ W G (tys st') /\ good G (tys st') t /\ (forall j, settled_at (tys st) j -> settled_at (tys st') j) /\
     ((t <> IInfer /\ (forall j, known_ty (tys st) j -> known_ty (tys st') j) /\ (path <> [] \/ tys st' = tys st -> away own path (tys st) (tys st'))) \/ (t = IInfer /\ (path <> [] -> trouble)))) \/ (WOk (u, st) = WPanic /\ trouble)).
  { intros N. left. exists u, st. split; [reflexivity|]. split; [exact HW|]. split; [exact (w_good HW Eu)|]. split; [auto|]. left. split; [exact N|]. split; [auto|]. intros _. apply away_refl. }
  destruct u as [|r| | |u]; try (apply MEMO; discriminate). clear MEMO.
  destruct (existsb (String.eqb id) path) eqn:EX.
  { left. exists (rec_type path id), st. split; [reflexivity|]. split; [exact HW|]. split; [exact (rec_type_good _ F PO)|]. split; [auto|]. left. split; [discriminate|]. split; [auto|]. intros _. apply away_refl. }
  assert (NP : ~ In id path). { intros Q1. rewrite <- not_true_iff_false in EX. apply EX, existsb_exists. exists id. split; [exact Q1|apply String.eqb_refl]. }
  destruct (CALL NP eq_refl) as (CO & QQ & JJ).
  assert (PO' : path_ok G (id :: path)) by (constructor; [eauto|exact PO]). assert (ND' : NoDup (id :: path)) by (constructor; auto).
  assert (OW : own (rexpr rl) = id) by (rewrite (ow_root HO (proj2 (find_rule_name F))); exact (proj1 (find_rule_name F))).
  assert (BF : before (id :: path) (rexpr rl) (tys st)) by (split; auto; [discriminate|]; intros a rest Q1; congruence).
  destruct (AN (id :: path) (rexpr rl) st BF CO) as [(t1 & st1 & E1 & AF)|[-> TR]]; [|right; split; [reflexivity|exact TR]].
  rewrite E1. cbn [wbind fst snd]. destruct AF as [FR1 W1 K1 S1 A1 N1].
  destruct (entry_total (tg_rules HG) id W1 (w_good W1 A1) N1) as (t2 & E2 & G2 & SAME). rewrite E2. cbn [wbind]. left. exists t2, (tset (rexpr rl) t2 st1).
  split; [reflexivity|]. unfold tset. cbn [tys].
  assert (FO : W G (update (tys st1) (rexpr rl) t2) /\ forall j, settled_at (tys st1) j -> settled_at (update (tys st1) (rexpr rl) t2) j).
  { destruct (settledb t1) eqn:St; [|apply (fill_one W1 A1); auto]. rewrite (SAME eq_refl), (update_same A1). auto. }
  destruct FO as [W2 S2]. split; [exact W2|]. split; [exact (good_mono S2 G2)|]. split; [auto|].
  assert (L1 : rexpr rl < length (tys st1)) by (rewrite (w_len W1); exact B).
  destruct (ity_eq_infer t2) as [->|N2].
  - right. split; [reflexivity|]. intros PN. exact (J_leave F NP PN A1 N1 QQ (J_visit PO' QQ JJ E1) E2).
  - left. split; [exact N2|]. split; [intros j Kj; destruct (K1 j Kj) as (v & Ev & Nv); unfold known_ty; rewrite nth_update by exact L1; destruct (j =? rexpr rl); eauto|].
    intros PN j. rewrite nth_update by exact L1.
    assert (PN' : path <> []).
    { destruct PN as [PN|PN]; [exact PN|]. exfalso. assert (X : nth_error (tys st) (rexpr rl) = Some t2) by (rewrite <- PN, nth_update, Nat.eqb_refl by exact L1; reflexivity). congruence. }
    destruct (Nat.eqb_spec j (rexpr rl)) as [->|D]; [right; rewrite OW; auto|]. destruct (FR1 j) as [->|[R|[_ R]]]; [auto| |].
    + right. rewrite (reaches_own HO R), OW. auto.
    + right. split; [exact PN'|]. intros Q1. apply R. right. exact Q1.
Qed.

Record walked (T T' : list ity) : Prop := {
  wk_w : W G T';
  wk_known : forall j, known_ty T j -> known_ty T' j;
  wk_settled : forall j, settled_at T j -> settled_at T' j
}.
Lemma after_walked path i T T' t : after path i T T' t -> walked T T'.
Proof. intros [_ A B C _ _]. split; auto. Qed.
Lemma walked_trans T1 T2 T3 : walked T1 T2 -> walked T2 T3 -> walked T1 T3.
Proof. intros [_ B1 C1] [A B2 C2]. split; auto. Qed.
Lemma before_child path i e j T : expr_of G i = Some e -> In j (visits e) -> before path i T -> before path j T /\ S (cost path j) <= cost path i.
Proof.
  intros Ee Ij [A B C D O SP F Q0 J0]. pose proof (tg_children HG Ee) as CH. rewrite Forall_forall in CH. pose proof (CH j (visits_children Ij)) as L. cbv beta in L.
  split; [|unfold cost; lia]. split; auto; [lia|intros a rest P; rewrite (ow_child HO Ee (visits_children Ij)); exact (O a rest P)|]. exact (Q_child Ee Ij Q0).
Qed.
(** The invariants after a visit. *)
Lemma before_next path i st st' j t k : before path i (tys st) -> before path j (tys st) -> sexpr G E k path j st = WOk (t, st') -> walked (tys st) (tys st') -> before path i (tys st').
Proof.
  intros [A B C D O SP F Q0 J0] BJ Ej [W1 K1 S1]. split; auto.
  - intros P rl Irl. apply K1. exact (D P rl Irl).
  - exact (J_visit A (bf_q BJ) J0 Ej).
Qed.
Definition beneath (path : list string) (e : expr) (T T' : list ity) : Prop :=
  forall j, nth_error T' j = nth_error T j \/ (exists c, In c (children e) /\ reaches (exprs G) c j) \/ (path <> [] /\ ~ In (own j) path).
Lemma beneath_refl path e T : beneath path e T T. Proof. intros j. auto. Qed.
Lemma beneath_after path i e c T T' t : expr_of G i = Some e -> In c (visits e) -> after path c T T' t -> beneath path e T T'.
Proof. intros Ee Ic AF j. destruct (af_frame AF j) as [R|[R|R]]; auto. right. left. exists c. split; [exact (visits_children Ic)|exact R]. Qed.
Lemma beneath_trans path e T1 T2 T3 : beneath path e T1 T2 -> beneath path e T2 T3 -> beneath path e T1 T3.
Proof. intros B1 B2 j. destruct (B2 j) as [R|R]; [rewrite R; apply B1|auto]. Qed.
Lemma sexprs_total k path i e : answers (sexpr G E k) k -> expr_of G i = Some e -> cost path i <= S k -> forall l st, incl l (visits e) -> before path i (tys st) ->
  (exists ts st', sexprs (sexpr G E k path) l st = WOk (ts, st') /\ walked (tys st) (tys st') /\ beneath path e (tys st) (tys st') /\ before path i (tys st') /\ Forall (known_ty (tys st')) l
     /\ Forall (good G (tys st')) ts /\ Forall (fun t => t <> IInfer) ts /\ length ts = length l) \/
  (sexprs (sexpr G E k path) l st = WPanic /\ trouble).
Proof.
  intros AN Ee LE. induction l as [|c l IH]; intros st SUB BF; cbn [sexprs].
  - left. exists [], st. split; [reflexivity|]. split; [split; auto; exact (bf_w BF)|]. split; [apply beneath_refl|]. auto 6.
  - assert (Ic : In c (visits e)) by (apply SUB; left; reflexivity). destruct (before_child Ee Ic BF) as [BC LC].
    destruct (AN path c st BC ltac:(lia)) as [(t & st1 & E1 & AF)|[-> TR]]; [|right; split; [reflexivity|exact TR]]. rewrite E1. cbn [wbind fst snd].
    pose proof (after_walked AF) as WK. pose proof (before_next BF BC E1 WK) as BF1.
    destruct (IH st1 ltac:(intros x Hx; apply SUB; right; exact Hx) BF1) as [(ts & st2 & E2 & WK2 & BN2 & BF2 & KN & GD & NI & LN)|[E2 TR]].
    + left. exists (t :: ts), st2. unfold sexprs in E2 |- *. rewrite E2. cbn [wbind fst snd]. split; [reflexivity|]. split; [exact (walked_trans WK WK2)|].
      split; [exact (beneath_trans (beneath_after Ee Ic AF) BN2)|]. split; [exact BF2|].
      split; [constructor; [|exact KN]|split; [constructor; [|exact GD]|split; [constructor; [exact (af_ne AF)|exact NI]|cbn; lia]]].
      * apply (wk_known WK2). exists t. split; [exact (af_type AF)|exact (af_ne AF)].
      * exact (good_mono (wk_settled WK2) (w_good (af_w AF) (af_type AF))).
    + right. unfold sexprs in E2 |- *. rewrite E2. auto.
Qed.
Lemma action_plain b f : plain (action_type E b f) = true /\ action_type E b f <> IInfer.
Proof. unfold action_type. destruct f as [[|s [|]]|]; try (split; [reflexivity|discriminate]). destruct (ret_of E s) as [[|]|]; (split; [reflexivity|discriminate]). Qed.
Lemma swalk_total k path i e st : answers (sexpr G E k) k -> expr_of G i = Some e -> cost path i <= S k -> before path i (tys st) ->
  (exists t st', swalk G E (sexpr G E k) path e st = WOk (t, st') /\
     ((walked (tys st) (tys st') /\ beneath path e (tys st) (tys st') /\ raw_good G (tys st') t) \/ (W G (tys st') /\ t = IInfer /\ trouble))) \/
  (swalk G E (sexpr G E k) path e st = WPanic /\ trouble).
Proof.
  intros AN Ee LE BF. pose proof (bf_w BF) as HW.
  assert (SAME : walked (tys st) (tys st)) by (split; auto).
  assert (LEAF : forall t, plain t = true -> t <> IInfer -> (exists t' st', WOk (t, st) = WOk (t', st') /\
     ((walked (tys st) (tys st') /\ beneath path e (tys st) (tys st') /\ raw_good G (tys st') t') \/ (W G (tys st') /\ t' = IInfer /\ trouble))) \/ (@WOk (ity * tst) (t, st) = WPanic /\ trouble)).
  { intros t P N. left. exists t, st. split; [reflexivity|]. left. split; [exact SAME|]. split; [apply beneath_refl|]. apply good_raw; [exact N|apply good_const, P]. }
  assert (CHILD : forall j u, In j (visits e) -> (forall T, W G T -> known_ty T j -> known_ty T (len - 1) -> raw_good G T (u (length T))) ->
    (exists t' st', wbind (sexpr G E k path j st) (fun q => WOk (u (length (tys (snd q))), snd q)) = WOk (t', st') /\
     ((walked (tys st) (tys st') /\ beneath path e (tys st) (tys st') /\ raw_good G (tys st') t') \/ (W G (tys st') /\ t' = IInfer /\ trouble))) \/
    (wbind (sexpr G E k path j st) (fun q => WOk (u (length (tys (snd q))), snd q)) = WPanic /\ trouble)).
  { intros j u Ij R. destruct (before_child Ee Ij BF) as [BJ LJ]. destruct (AN path j st BJ ltac:(lia)) as [(t & st1 & E1 & AF)|[-> TR]]; [|right; auto].
    rewrite E1. cbn [wbind snd]. left. exists (u (length (tys st1))), st1. split; [reflexivity|]. left. split; [exact (after_walked AF)|]. split; [exact (beneath_after Ee Ij AF)|]. apply R.
    - exact (af_w AF).
    - exists t. split; [exact (af_type AF)|exact (af_ne AF)].
    - apply (af_known AF). exact (bf_span BF). }
  destruct e as [lit| |cls|id|p|l|l|j|j|j|j|j|j b f|j u|j|j]; cbn [swalk].
  - apply LEAF; [reflexivity|discriminate].
  - apply LEAF; [reflexivity|discriminate].
  - apply LEAF; [reflexivity|discriminate].
  - destruct (tg_nt HG Ee) as (rl & F).
    assert (CALL : ~ In id path -> nth_error (tys st) (rexpr rl) = Some IInfer -> cost (id :: path) (rexpr rl) <= k /\ Q (id :: path) (rexpr rl) /\ J (id :: path) (tys st)).
    { intros NP Er. split; [exact (enter_cost (bf_path BF) (bf_nodup BF) F NP LE)|]. exact (J_call Ee F NP Er (bf_roots BF) (bf_q BF) (bf_j BF)). }
    destruct (srule_total AN F (bf_path BF) (bf_nodup BF) HW (bf_span BF) CALL) as [(t & st1 & E1 & W1 & G1 & S1 & D)|[-> TR]]; [|right; auto]. left. exists t, st1. split; [exact E1|].
    destruct D as [(N & K & AW)|[-> TR]].
    { left. split; [split; auto|]. split; [|apply good_raw; auto].
      assert (AW' : away own path (tys st) (tys st1)).
      { apply AW. destruct path as [|a path']; [right|left; discriminate]. unfold srule in E1. rewrite F in E1. apply wbind_ok in E1. destruct E1 as (v & Ev & E1). apply tget_ok in Ev.
        destruct (bf_roots BF eq_refl (proj2 (find_rule_name F))) as (w & Ew & Nw). assert (v = w) by congruence. subst w. destruct v; try congruence;
        apply WOk_inj', pair_inj in E1; destruct E1 as [_ <-]; reflexivity. }
      intros j. destruct (AW' j); auto. }
    destruct path as [|a path'] eqn:EP.
    + exfalso. unfold srule in E1. rewrite F in E1. apply wbind_ok in E1. destruct E1 as (v & Ev & E1). apply tget_ok in Ev.
      destruct (bf_roots BF eq_refl (proj2 (find_rule_name F))) as (w & Ew & Nw). assert (v = w) by congruence. subst w. destruct v; try congruence;
        apply WOk_inj', pair_inj in E1; destruct E1 as [Q1 _]; discriminate.
    + right. split; [exact W1|]. split; [reflexivity|]. apply TR. discriminate.
  - apply LEAF; [reflexivity|discriminate].
  - destruct (sexprs_total AN Ee LE (incl_refl _) BF) as [(ts & st1 & E1 & WK & BN & BF1 & KN & _)|[E1 TR]]; cbn [visits] in E1; rewrite E1; [|right; auto]. cbn [wbind snd].
    left. exists (IRegular (TTuple l)), st1. split; [reflexivity|]. left. split; [exact WK|]. split; [exact BN|]. split; [intros ->; exact (tg_seq HG Ee)|exact KN].
  - destruct (sexprs_total AN Ee LE (incl_refl _) BF) as [(ts & st1 & E1 & WK & BN & BF1 & KN & GD & NI & LN)|[E1 TR]]; cbn [visits] in E1; rewrite E1; [|right; auto]. cbn [wbind fst snd].
    assert (NE : ts <> []) by (intros ->; destruct l; [exact (tg_alt HG Ee)|discriminate]).
    destruct (sum_total (wk_w WK) HC NE GD NI) as (r & -> & HR). cbn [wbind]. destruct r as [t|].
    + left. exists t, st1. split; [reflexivity|]. left. split; [exact WK|]. split; [exact BN|]. destruct (HR t eq_refl) as (A & B & _). apply good_raw; auto.
    + left. exists IInvisible, (tfail st1). split; [reflexivity|]. left. unfold tfail. cbn [tys]. split; [exact WK|]. split; [exact BN|exact I].
  - apply (CHILD j (fun _ => IRegular (TList j)) (or_introl eq_refl)). auto.
  - apply (CHILD j (fun _ => IRegular (TList j)) (or_introl eq_refl)). auto.
  - apply (CHILD j (fun _ => IRegular (TOptional j)) (or_introl eq_refl)). auto.
  - apply LEAF; [reflexivity|discriminate].
  - apply LEAF; [reflexivity|discriminate].
  - destruct (action_plain b f). apply LEAF; auto.
  - destruct (tg_asc HG Ee) as [->|[->|(s & ->)]]; apply LEAF; try reflexivity; discriminate.
  - apply (CHILD j (fun n => IRegular (TTuple [n - 1; j])) (or_introl eq_refl)). intros T HT K1 K2. split; [discriminate|]. rewrite (w_len HT). auto.
  - apply (CHILD j (fun _ => IRegular (TRust (range_ty E))) (or_introl eq_refl)). intros T _ _ _. exact I.
Qed.

Theorem sexpr_total fuel : answers (sexpr G E fuel) fuel.
Proof.
  induction fuel as [|k IH]; intros path i st BF LE; [unfold cost in LE; rewrite Nat.add_1_r in LE; inversion LE|]. cbn [sexpr]. pose proof (bf_w BF) as HW. pose proof (bf_index BF) as B.
  destruct (nth_error (tys st) i) as [u|] eqn:Eu. 2: { apply nth_error_None in Eu. rewrite (w_len HW) in Eu. lia. }
  rewrite (tget_some Eu). cbn [wbind].
  assert (MEMO : u <> IInfer -> (exists t st', WOk (u, st) = WOk (t, st') /\ after path i (tys st) (tys st') t) \/ (@WOk (ity * tst) (u, st) = WPanic /\ trouble)).
  { intros N. left. exists u, st. split; [reflexivity|]. split; auto. intros j. auto. }
  destruct u as [|r| | |u]; try (apply MEMO; discriminate). clear MEMO.
  destruct (expr_of G i) as [e|] eqn:Ee. 2: { unfold expr_of in Ee. apply nth_error_None in Ee. lia. }
  destruct (swalk_total IH Ee LE BF) as [(t & st1 & E1 & D)|[-> TR]]; [|right; auto]. rewrite E1. cbn [wbind fst snd].
  destruct D as [(WK & BN & R)|(W1 & -> & TR)]; [|right; auto].
  destruct (reduce_total (wk_w WK) R) as (t' & E2 & G2 & N2). rewrite E2. cbn [wbind]. left. exists t', (tset i t' st1). split; [reflexivity|]. unfold tset. cbn [tys].
  assert (Ei : nth_error (tys st1) i = Some IInfer).
  { destruct (BN i) as [Q1|[(c & Ic & R1)|[PN Q1]]]; [congruence| |].
    - exfalso. apply (reaches_le HG) in R1. pose proof (tg_children HG Ee) as F. rewrite Forall_forall in F. specialize (F c Ic). cbv beta in F. lia.
    - exfalso. destruct path as [|a rest]; [congruence|]. apply Q1. left. symmetry. exact (bf_own BF eq_refl). }
  assert (L1 : i < length (tys st1)) by (rewrite (w_len (wk_w WK)); exact B).
  destruct (@fill_one G (tys st1) i t' IInfer (wk_w WK) Ei) as [W2 S2]; [left; auto|]. split.
  - intros j. rewrite nth_update by exact L1. destruct (Nat.eqb_spec j i) as [->|D]; [right; left; constructor|]. destruct (BN j) as [Q1|[(c & Ic & R1)|Q1]]; [auto| |auto].
    right. left. exact (rc_child Ee Ic R1).
  - exact W2.
  - intros j Kj. destruct (wk_known WK Kj) as (v & Ev & Nv). unfold known_ty. rewrite nth_update by exact L1. destruct (j =? i); eauto.
  - intros j Sj. apply S2, (wk_settled WK), Sj.
  - rewrite nth_update, Nat.eqb_refl by exact L1. reflexivity.
  - exact N2.
Qed.

Hypothesis J_top : forall T id rl, find_rule G id = Some rl -> nth_error T (rexpr rl) = Some IInfer -> J [] T -> Q [id] (rexpr rl) /\ J [id] T.
Hypothesis J_rule : forall fuel id st t st', Inv G [] (tys st) -> J [] (tys st) -> srule G (sexpr G E fuel) [] id st = WOk (t, st') -> J [] (tys st').
Theorem surface_total fuel : nr * len <= fuel -> forall rs st, incl rs (rules G) -> Inv G [] (tys st) -> W G (tys st) -> known_ty (tys st) (len - 1) -> J [] (tys st) ->
  (exists st', surface_from G E fuel rs st = WOk st' /\ W G (tys st') /\ known_ty (tys st') (len - 1)) \/ (surface_from G E fuel rs st = WPanic /\ trouble).
Proof.
  intros LF. induction rs as [|rl rs IH]; intros st SUB HI HW SP HJ; cbn [surface_from]; [left; eauto|].
  assert (Irl : In rl (rules G)) by (apply SUB; left; reflexivity).
  destruct (find_rule G (rname rl)) as [rl'|] eqn:F.
  2: { unfold find_rule in F. pose proof (find_none _ _ F rl Irl) as X. cbv beta in X. rewrite String.eqb_refl in X. discriminate. }
  assert (CALL : ~ In (rname rl) [] -> nth_error (tys st) (rexpr rl') = Some IInfer -> cost [rname rl] (rexpr rl') <= fuel /\ Q [rname rl] (rexpr rl') /\ J [rname rl] (tys st)).
  { intros _ Er. split; [|exact (J_top F Er HJ)]. pose proof (tg_rules HG (proj2 (find_rule_name F))) as B. unfold cost. cbn [length].
    assert (NZ : 0 < nr) by (destruct (rules G); [destruct Irl|cbn; lia]). replace nr with (S (nr - 1)) in LF by lia. nia. }
  destruct (@srule_total fuel (@sexpr_total fuel) [] (rname rl) rl' st F ltac:(constructor) ltac:(constructor) HW SP CALL) as [(t & st1 & E1 & W1 & G1 & S1 & D)|[-> TR]]; [|right; auto].
  rewrite E1. cbn [wbind snd]. destruct (srule_ok HO (@sexpr_ok G E HG own HO fuel) ltac:(constructor) HI E1) as [N K]. specialize (N eq_refl).
  destruct D as [(_ & K1 & _)|[-> _]]; [|congruence]. destruct (K N) as (I1 & _).
  exact (IH st1 ltac:(intros x Hx; apply SUB; right; exact Hx) I1 W1 (K1 _ SP) (J_rule HI HJ E1)).
Qed.
End Visit.

(** ---------------- the top-down visitor answers ---------------- *)
Section Down.
Variable G : grammar.
Variable E : tenv.
Hypothesis HG : typable G.
Local Notation len := (length (exprs G)).
Local Notation nr := (length (rules G)).
Variable own : nat -> string.
Hypothesis HO : owned G own.
Hypothesis HC : len < cmp_fuel E.
Record D (T : list ity) : Prop := { d_w : W G T; d_roots : roots_known G T; d_span : known_ty T (len - 1) }.

Lemma se_total fuel i st : (nr + 1) * len <= fuel -> i < len -> D (tys st) -> exists t st', sexpr G E fuel [] i st = WOk (t, st') /\ D (tys st').
Proof.
  intros LF L [HW HR SP].
  destruct (@sexpr_total G E HG own HO HC False (fun path _ => path = []) (fun _ _ => True)
    ltac:(auto) ltac:(auto)
    ltac:(intros path T j id rl Ee F NP Er RK _ ->; destruct (RK eq_refl rl (proj2 (find_rule_name F))) as (v & Ev & Nv); congruence)
    ltac:(intros; discriminate) fuel [] i st) as [(t & st' & E1 & AF)|[_ []]].
  - split; auto; try constructor. intros a rest Q. discriminate.
  - unfold cost. cbn [length]. rewrite Nat.sub_0_r. nia.
  - exists t, st'. split; [exact E1|]. destruct AF as [_ W1 K1 _ _ _]. split; auto. intros rl Irl. apply K1, HR, Irl.
Qed.
Lemma D_set T i t u : D T -> nth_error T i = Some u -> plain t = true -> settledb t = true -> D (update T i t).
Proof.
  intros [HW HR SP] Ei P S1. assert (L : i < length T) by (apply nth_error_Some; congruence). assert (N : t <> IInfer) by (intros ->; discriminate).
  assert (K : forall j, known_ty T j -> known_ty (update T i t) j).
  { intros j (v & Ev & Nv). unfold known_ty. rewrite nth_update by exact L. destruct (j =? i); eauto. }
  split; [exact (proj1 (@fill_one G T i t u HW Ei ltac:(right; auto)))| |apply K, SP]. intros rl Irl. apply K, HR, Irl.
Qed.
Definition asc_plain (asc : option ity) : Prop := forall t, asc = Some t -> plain t = true /\ settledb t = true.
Lemma check_total t aty st : D (tys st) -> good G (tys st) t -> plain aty = true -> exists st', check_ascription E t aty st = WOk st' /\ D (tys st').
Proof.
  intros HD Gt P. unfold check_ascription. destruct (cmp_total (d_w HD) HC Gt (good_const G (tys st) P)) as (b & ->). cbn [wbind]. eexists. split; [reflexivity|]. destruct b; exact HD.
Qed.
Lemma dexprs_total (vd : nat -> tst -> wres tst) l : (forall i st, In i l -> D (tys st) -> exists st', vd i st = WOk st' /\ D (tys st')) ->
  forall st, D (tys st) -> exists st', dexprs vd l st = WOk st' /\ D (tys st').
Proof.
  intros V. induction l as [|i l IH]; intros st HD; cbn [dexprs]; [eauto|]. destruct (V i st (or_introl eq_refl) HD) as (st1 & E1 & D1). rewrite E1. cbn [wbind].
  exact (IH (fun j s Ij => V j s (or_intror Ij)) st1 D1).
Qed.
Theorem dexpr_total sfuel : (nr + 1) * len <= sfuel -> forall fuel uu asc i st, i < fuel -> i < len -> asc_plain asc -> D (tys st) ->
  exists st', dexpr G E fuel sfuel uu asc i st = WOk st' /\ D (tys st').
Proof.
  intros LS. induction fuel as [|k IH]; intros uu asc i st LF L AP HD; [lia|]. cbn [dexpr].
  destruct (nth_error (tys st) i) as [t|] eqn:Et. 2: { apply nth_error_None in Et. rewrite (w_len (d_w HD)) in Et. lia. }
  rewrite (tget_some Et). cbn [wbind]. destruct (expr_of G i) as [e|] eqn:Ee. 2: { unfold expr_of in Ee. apply nth_error_None in Ee. lia. }
  assert (CH : forall j, In j (children e) -> j < k /\ j < len).
  { intros j Ij. pose proof (tg_children HG Ee) as F. rewrite Forall_forall in F. specialize (F j Ij). cbv beta in F. lia. }
  assert (NOASC : asc_plain None) by (intros u Q; discriminate).
  assert (WALK : forall uu st, D (tys st) -> exists st', dwalk E (sexpr G E sfuel []) (dexpr G E k sfuel) uu asc e st = WOk st' /\ D (tys st')).
  { clear uu st HD Et. intros uu st HD.
    assert (ONE : forall j asc, In j (children e) -> asc_plain asc -> exists st', dexpr G E k sfuel uu asc j st = WOk st' /\ D (tys st')).
    { intros j a Ij Ha. destruct (CH j Ij). apply IH; auto. }
    destruct e as [lit| |cls|id|p|l|l|j|j|j|j|j|j b f|j u|j|j]; cbn [dwalk]; try (eexists; split; [reflexivity|exact HD]; fail); try (apply ONE; [left; reflexivity|exact AP]).
    - destruct asc as [aty|].
      + apply dexprs_total; [|exact HD]. intros j s Ij Ds. destruct (CH j Ij) as [L1 L2]. destruct (nth_error (tys s) j) as [v|] eqn:Ev.
        2: { apply nth_error_None in Ev. rewrite (w_len (d_w Ds)) in Ev. lia. }
        rewrite (tget_some Ev). cbn [wbind]. apply IH; auto. destruct (is_unit_kind v); [exact NOASC|exact AP].
      + apply dexprs_total; [|exact HD]. intros j s Ij Ds. destruct (CH j Ij). apply IH; auto.
    - apply dexprs_total; [|exact HD]. intros j s Ij Ds. destruct (CH j Ij). apply IH; auto.
    - destruct (CH j (or_introl eq_refl)) as [L1 L2]. destruct (se_total (i := j) LS L2 HD) as (t1 & st1 & -> & D1). cbn [wbind snd]. apply IH; auto.
    - destruct (CH j (or_introl eq_refl)) as [L1 L2].
      assert (PU : plain u = true /\ settledb u = true) by (destruct (tg_asc HG Ee) as [->|[->|(s & ->)]]; split; reflexivity).
      assert (C1 : exists st1, match asc with Some aty => check_ascription E u aty st | None => WOk st end = WOk st1 /\ D (tys st1)).
      { destruct asc as [aty|]; [|eauto]. apply check_total; [exact HD|apply good_const, PU|apply (AP aty eq_refl)]. }
      destruct C1 as (st1 & -> & D1). cbn [wbind].
      assert (C2 : exists st2, (if uu then WOk st1 else wbind (sexpr G E sfuel [] j st1) (fun q => WOk (snd q))) = WOk st2 /\ D (tys st2)).
      { destruct uu; [eauto|]. destruct (se_total (i := j) LS L2 D1) as (t1 & st2 & -> & D2). cbn [wbind snd]. eauto. }
      destruct C2 as (st2 & -> & D2). cbn [wbind]. apply IH; auto. intros v Q. injection Q as <-. exact PU. }
  destruct uu; [apply WALK; exact (@D_set (tys st) i (IRegular TUnit) t HD Et eq_refl eq_refl)|]. destruct asc as [aty|]; [|apply WALK, HD]. destruct (AP aty eq_refl) as [P1 P2].
  destruct (is_external t); [apply WALK; exact (@D_set (tys st) i aty t HD Et P1 P2)|]. destruct (check_total HD (w_good (d_w HD) Et) P1) as (st1 & -> & D1). cbn [wbind]. exact (WALK false st1 D1).
Qed.
Theorem depth_total fuel : (nr + 1) * len <= fuel -> forall st, D (tys st) -> exists st', depth G E fuel fuel st = WOk st' /\ D (tys st').
Proof.
  intros LF st HD. unfold depth. apply dexprs_total; [|exact HD]. intros i s Ii Ds. apply in_map_iff in Ii. destruct Ii as (rl & <- & Irl).
  pose proof (tg_rules HG Irl) as B. apply dexpr_total; auto; [nia|]. intros t Q. discriminate.
Qed.
Lemma have_type_total T : W G T -> forall rs, incl rs (rules G) -> exists b, rules_have_type E T rs = WOk b.
Proof.
  intros HW. induction rs as [|rl rs IH]; intros SUB; cbn [rules_have_type]; [eauto|]. assert (Irl : In rl (rules G)) by (apply SUB; left; reflexivity).
  pose proof (tg_rules HG Irl) as B. destruct (nth_error T (rexpr rl)) as [t|] eqn:Et. 2: { apply nth_error_None in Et. rewrite (w_len HW) in Et. lia. }
  rewrite (tget_some Et). cbn [wbind]. destruct (ext_total HW HC (w_good HW Et)) as (b & ->). cbn [wbind].
  destruct (IH ltac:(intros x Hx; apply SUB; right; exact Hx)) as (ok & ->). cbn [wbind]. eauto.
Qed.
Lemma recs_total st : W G (tys st) -> roots_known G (tys st) -> known_ty (tys st) (len - 1) -> exists st', reduce_all_rec G st = WOk st' /\ D (tys st').
Proof.
  intros HW HR SP. unfold reduce_all_rec. set (T := tys st) in *.
  assert (X : forall l, (forall t, In t l -> In t T) -> exists l', reduce_recs G T l = WOk l' /\
    Forall2 (fun t t' => reduce_rec G T t = WOk t' /\ good G T t' /\ (is_rec_ty t = false -> t' = t) /\ (t <> IInfer -> t' <> IInfer)) l l').
  { induction l as [|t l IH]; intros SUB; cbn [reduce_recs]; [exists []; split; [reflexivity|constructor]|].
    assert (It : In t T) by (apply SUB; left; reflexivity). apply In_nth_error in It. destruct It as (i & Ei).
    destruct (reduce_rec_total (tg_rules HG) HW (w_good HW Ei)) as (t' & E1 & G1 & _ & S1). destruct (IH (fun u Hu => SUB u (or_intror Hu))) as (l' & E2 & F2).
    rewrite E1. cbn [wbind]. rewrite E2. cbn [wbind]. eexists. split; [reflexivity|]. constructor; [|exact F2]. split; [exact E1|]. split; [exact G1|]. split; [exact S1|].
    intros N Q. subst t'. destruct (is_rec_ty t) eqn:R; [|rewrite <- (S1 eq_refl) in N; congruence]. destruct t as [|r| | |t]; try discriminate. cbn [reduce_rec] in E1.
    destruct (is_poly r); [discriminate|]. apply first_non_rec_ok in E1. destruct E1 as [E1|(id & rl & _ & F & Eu & _)]; [discriminate|].
    destruct (HR rl (proj2 (find_rule_name F))) as (v & Ev & Nv). unfold T in *. congruence. }
  destruct (X T (fun t H => H)) as (T' & E1 & F). rewrite E1. cbn [wbind]. eexists. split; [reflexivity|]. cbn [tys].
  assert (AT : forall x t, nth_error T x = Some t -> exists t', nth_error T' x = Some t' /\ good G T t' /\ (is_rec_ty t = false -> t' = t) /\ (t <> IInfer -> t' <> IInfer)).
  { intros x t Et. destruct (Forall2_at F Et) as (t' & Et' & _ & R). exists t'. auto. }
  assert (K : forall j, known_ty T j -> known_ty T' j). { intros j (v & Ev & Nv). destruct (AT j v Ev) as (v' & Ev' & _ & _ & N'). exists v'. auto. }
  split; [|intros rl Irl; apply K, HR, Irl|apply K, SP].
  refine (proj1 (@fill G T T' HW _ _)); [clear - F; induction F; cbn; congruence|]. intros x t Et. destruct (AT x t Et) as (t' & Et' & G1 & S1 & _). exists t'. split; [exact Et'|].
  destruct (is_rec_ty t) eqn:R; [|left; apply S1; reflexivity]. right. left. destruct t; try discriminate. auto.
Qed.
End Down.
