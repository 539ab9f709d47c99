(** When [line_column] is right: exactly as long as no carriage return that ends a line has been read. *)
From Coq Require Import List Lia Arith NArith Bool.
From Verif Require Import Base Utf8 Stream RuntimeFacts.
Import ListNotations.
Set Implicit Arguments. Unset Strict Implicit.

Lemma strip_cases (l : list byte) : strip_cr l = l \/ exists l0, l = l0 ++ [13%N] /\ strip_cr l = l0.
Proof.
  unfold strip_cr. destruct (rev l) as [|x r] eqn:E; [auto|].
  destruct (x =? 13)%N eqn:X; [|auto]. apply N.eqb_eq in X. subst x. right. exists (rev r).
  split; [|reflexivity]. rewrite <- (rev_involutive l), E. reflexivity.
Qed.
Lemma strip_snoc (l : list byte) : strip_cr (l ++ [13%N]) = l.
Proof. unfold strip_cr. rewrite rev_app_distr. simpl. apply rev_involutive. Qed.
Lemma strip_le (l : list byte) : length (strip_cr l) <= length l.
Proof. destruct (strip_cases l) as [-> | (l0 & -> & ->)]; [lia|]. rewrite app_length. lia. Qed.

Lemma lc_line ls : forall r k, k <= fst (lc_loop ls r k).
Proof.
  induction ls as [|n ls IH]; intros r k; [simpl; lia|]. cbn [lc_loop].
  destruct (r <? n + 1); [simpl; lia|]. specialize (IH (r - (n + 1)) (k + 1)). lia.
Qed.

(** The lines the code sees: the true ones, without their carriage returns, the last one possibly dropped. *)
Inductive shorter : list nat -> list nat -> Prop :=
| sh_nil ls : shorter [] ls
| sh_cons a b ls ms : a <= b -> shorter ls ms -> shorter (a :: ls) (b :: ms).

Lemma lc_drift ls ms : shorter ls ms -> forall off d k, 0 < d ->
  lc_loop ls (off + d) k <> lc_loop ms off k.
Proof.
  induction 1 as [ms|a b ls ms L _ IH]; intros off d k D E.
  - destruct ms as [|m ms]; cbn [lc_loop] in E.
    + injection E as E. lia.
    + destruct (off <? m + 1); [injection E as E; lia|].
      pose proof (lc_line ms (off - (m + 1)) (k + 1)) as Q. rewrite <- E in Q. simpl in Q. lia.
  - cbn [lc_loop] in E. destruct (off <? b + 1) eqn:B.
    + destruct (off + d <? a + 1); [injection E as E; lia|].
      pose proof (lc_line ls (off + d - (a + 1)) (k + 1)) as Q. rewrite E in Q. simpl in Q. lia.
    + apply Nat.ltb_ge in B. replace (off + d <? a + 1) with false in E by (symmetry; apply Nat.ltb_ge; lia).
      apply (IH (off - (b + 1)) (d + (b - a)) (k + 1)); [lia|].
      rewrite <- E. f_equal. lia.
Qed.

Lemma shorter_lines ls : shorter (map (@length byte) (map strip_cr (drop_last_empty ls))) (map (@length byte) ls).
Proof.
  induction ls as [|l ls IH]; [constructor|]. destruct ls as [|m ls].
  - simpl. destruct l as [|x l]; [constructor|]. cbn [map]. constructor; [apply strip_le|constructor].
  - change (drop_last_empty (l :: m :: ls)) with (l :: drop_last_empty (m :: ls)). cbn [map].
    constructor; [apply strip_le|exact IH].
Qed.

(** No stripped carriage return lies before the offset. *)
Fixpoint unstripped (ls : list (list byte)) (off : nat) : Prop :=
  match ls with
  | [] => True
  | l :: r => (strip_cr l = l \/ off < length l) /\ (length l < off -> unstripped r (off - (length l + 1)))
  end.

Lemma lc_exact ls : ls <> [] -> forall off k, off < fold_right (fun l n => length l + 1 + n) 0 ls ->
  lc_loop (map (@length byte) (map strip_cr (drop_last_empty ls))) off k
    = lc_loop (map (@length byte) ls) off k
  <-> unstripped ls off.
Proof.
  induction ls as [|l ls IH]; [congruence|]. intros _ off k Off.
  destruct ls as [|m ls].
  - cbn [drop_last_empty map unstripped fold_right] in *.
    destruct l as [|x l].
    + simpl in Off. assert (off = 0) by lia. subst. simpl. split; [|reflexivity]. intros _. split; [left; reflexivity|lia].
    + cbn [map lc_loop] in *. remember (x :: l) as y eqn:Ey.
      replace (off <? length y + 1) with true by (symmetry; apply Nat.ltb_lt; lia).
      destruct (strip_cases y) as [Q | (l0 & Q & R)].
      * rewrite Q. replace (off <? length y + 1) with true by (symmetry; apply Nat.ltb_lt; lia).
        split; [|reflexivity]. intros _. split; [left; reflexivity|lia].
      * assert (L : length y = length l0 + 1) by (rewrite Q, app_length; reflexivity).
        rewrite R. destruct (off <? length l0 + 1) eqn:B.
        -- apply Nat.ltb_lt in B. split; [|reflexivity]. intros _. split; [right; lia|lia].
        -- apply Nat.ltb_ge in B. split; [intros E; injection E as E1 E2; lia|].
           intros [[W | W] _]; [|lia]. apply (f_equal (@length byte)) in W. try rewrite R in W. lia.
  - change (drop_last_empty (l :: m :: ls)) with (l :: drop_last_empty (m :: ls)).
    assert (IH' : forall off k, off < fold_right (fun l n => length l + 1 + n) 0 (m :: ls) ->
       lc_loop (map (@length byte) (map strip_cr (drop_last_empty (m :: ls)))) off k
       = lc_loop (map (@length byte) (m :: ls)) off k <-> unstripped (m :: ls) off)
      by (apply IH; discriminate). clear IH.
    pose proof (shorter_lines (m :: ls)) as Sh.
    remember (m :: ls) as ms eqn:Ems. cbn [map lc_loop unstripped fold_right] in *.
    destruct (off <? length l + 1) eqn:B.
    + apply Nat.ltb_lt in B. destruct (strip_cases l) as [Q | (l0 & Q & R)].
      * rewrite Q. replace (off <? length l + 1) with true by (symmetry; apply Nat.ltb_lt; lia).
        split; [|reflexivity]. intros _. split; [left; reflexivity|lia].
      * assert (L : length l = length l0 + 1) by (rewrite Q, app_length; reflexivity).
        rewrite R. destruct (off <? length l0 + 1) eqn:B2.
        -- apply Nat.ltb_lt in B2. split; [|reflexivity]. intros _. split; [right; lia|lia].
        -- apply Nat.ltb_ge in B2. split.
           ++ intros E. pose proof (lc_line (map (@length byte) (map strip_cr (drop_last_empty ms))) (off - (length l0 + 1)) (k + 1)) as W.
              rewrite E in W. simpl in W. lia.
           ++ intros [[W | W] _]; [|lia]. apply (f_equal (@length byte)) in W. try rewrite R in W. lia.
    + apply Nat.ltb_ge in B. pose proof (strip_le l) as SL.
      replace (off <? length (strip_cr l) + 1) with false by (symmetry; apply Nat.ltb_ge; lia).
      destruct (strip_cases l) as [Q | (l0 & Q & R)].
      * rewrite Q, IH' by lia. split; [intros W; split; [left; reflexivity|intros _; exact W]|].
        intros [_ W]. apply W. lia.
      * assert (L : length l = length l0 + 1) by (rewrite Q, app_length; reflexivity).
        rewrite R. split.
        -- intros E. exfalso. apply (@lc_drift _ _ Sh (off - (length l + 1)) 1 (k + 1)); [lia|].
           rewrite <- E. f_equal. lia.
        -- intros [[W | W] _]; [|lia]. apply (f_equal (@length byte)) in W. try rewrite R in W. lia.
Qed.

(** A carriage return that ends a line. *)
Definition ends_line (c : list N) : Prop := c = [] \/ exists d, c = 10%N :: d.

Lemma split_first b l ls : split_lf b = l :: ls -> ~ In 10%N l
  /\ ((ls = [] /\ b = l) \/ exists b', b = l ++ 10%N :: b' /\ split_lf b' = ls).
Proof.
  revert l ls. induction b as [|x b IH]; intros l ls E.
  - simpl in E. injection E as <- <-. split; [easy|left; auto].
  - simpl in E. destruct (x =? 10)%N eqn:X.
    + injection E as <- <-. apply N.eqb_eq in X. subst x. split; [easy|]. right. exists b. auto.
    + destruct (split_lf b) as [|l' ls'] eqn:Eb; [exfalso; apply (split_lf_nonempty b Eb)|].
      injection E as <- <-. destruct (IH _ _ eq_refl) as (H1 & H2). split.
      * intros [H | H]; [subst; discriminate|auto].
      * destruct H2 as [[-> ->] | (b' & -> & <-)]; [left; auto|]. right. exists b'. auto.
Qed.

Lemma unstripped_bytes n : forall b, length b <= n -> forall off,
  unstripped (split_lf b) off <-> (forall a c, b = a ++ 13%N :: c -> ends_line c -> off <= length a).
Proof.
  induction n as [|n IH]; intros b Len off.
  - destruct b; [|simpl in Len; lia]. simpl. split; [intros _ a c E; destruct a; discriminate|].
    intros _. split; [left; reflexivity|trivial].
  - destruct (split_lf b) as [|l ls] eqn:E; [exfalso; apply (split_lf_nonempty b E)|].
    destruct (split_first E) as (Nl & Cs). cbn [unstripped].
    assert (Here : forall tl, b = l ++ tl -> ends_line tl ->
              (strip_cr l = l \/ off < length l) <->
              (forall a c, l = a ++ 13%N :: c -> c = [] -> off <= length a)).
    { intros tl Eb El. destruct (strip_cases l) as [Q | (l0 & Q & R)].
      - split; [|intros _; left; exact Q]. intros _ a c El2 ->. rewrite El2, strip_snoc in Q.
        apply (f_equal (@length _)) in Q. rewrite app_length in Q. simpl in Q. lia.
      - split.
        + intros [W | W] a c El2 ->.
          * rewrite R in W. rewrite <- W in Q. apply (f_equal (@length _)) in Q. rewrite app_length in Q. simpl in Q. lia.
          * rewrite El2, app_length in W. simpl in W. lia.
        + intros W. right. specialize (W _ _ Q eq_refl). rewrite Q, app_length. simpl. lia. }
    destruct Cs as [[-> ->] | (b' & -> & E')].
    + specialize (Here [] (eq_sym (app_nil_r l)) (or_introl eq_refl)). split.
      * intros [W _] a c Ec En. destruct En as [-> | (d & ->)]; [apply (proj1 Here W a [] Ec eq_refl)|].
        exfalso. apply Nl. rewrite Ec. apply in_or_app. right. right. left. reflexivity.
      * intros W. split; [|intros _; constructor]. apply Here. intros a c Ec ->. apply (W a [] Ec). left. reflexivity.
    + specialize (Here (10%N :: b') eq_refl (or_intror (ex_intro _ b' eq_refl))).
      rewrite app_length in Len. simpl in Len. rewrite <- E'. rewrite (IH b') by lia. split.
      * intros [W1 W2] a c Ec En.
        apply app_eq_app in Ec. destruct Ec as (m & [[E1 E2] | [E1 E2]]).
        -- (* the CR is in l or right at the LF *)
           destruct m as [|x m]; [discriminate|]. cbn [app] in E2. injection E2 as <- E2.
           destruct m as [|y m].
           ++ apply (proj1 Here W1 a [] E1 eq_refl).
           ++ destruct En as [-> | (d & ->)]; [discriminate|]. cbn [app] in E2; injection E2 as <- E2.
              exfalso. apply Nl. rewrite E1. apply in_or_app. right. right. left. reflexivity.
        -- destruct m as [|x m]; [discriminate|]. cbn [app] in E2. injection E2 as <- E2.
           subst a. destruct (le_lt_dec off (length l)) as [B | B]; [rewrite app_length; lia|].
           specialize (W2 B m c E2 En). rewrite app_length. simpl. lia.
      * intros W. split.
        -- apply Here. intros a c Ec ->. apply (W a (10%N :: b')); [|right; eauto]. rewrite Ec, <- app_assoc. reflexivity.
        -- intros B a c Ec En. specialize (W (l ++ 10%N :: a) c).
           rewrite app_length in W. simpl in W. rewrite Ec, <- app_assoc in W. specialize (W eq_refl En). lia.
Qed.

Lemma column_walk s : bytes_offset s <= length (raw_data s) ->
  line_column s = walk (raw_data s) (bytes_offset s) 1 1
  <-> (forall a c, raw_data s = a ++ 13%N :: c -> ends_line c -> bytes_offset s <= length a).
Proof.
  intros Off. unfold line_column, lines.
  rewrite <- (@unstripped_bytes (length (raw_data s))) by lia.
  rewrite <- lc_exact with (k := 1); [|apply split_lf_nonempty|rewrite split_total; lia].
  destruct (split_lf (raw_data s)) as [|l ls] eqn:E; [exfalso; apply (split_lf_nonempty _ E)|].
  pose proof (@lc_walk _ _ _ E 0 (bytes_offset s) 1 Off) as W. cbn [Nat.add] in W. rewrite <- W. cbn [map]. reflexivity.
Qed.

(** The carriage returns of the encoding are those of the text. *)
Lemma enc_cr t : scalars t -> forall a c, enc t = a ++ 13%N :: c ->
  exists p q, t = p ++ 13%N :: q /\ c = enc q /\ a = enc p.
Proof.
  induction t as [|x t IH]; intros Hs a c E.
  - destruct a; discriminate.
  - apply scalars_cons in Hs. destruct Hs as [Hx Hs]. rewrite enc_cons in E.
    apply app_eq_app in E. destruct E as (l & [[E1 E2]|[E1 E2]]).
    + destruct l as [|y l].
      * simpl in E2. destruct (IH Hs [] c (eq_sym E2)) as (p & q & -> & -> & Ep).
        rewrite app_nil_r in E1. exists (x :: p), q. rewrite enc_cons, <- Ep, app_nil_r. auto.
      * injection E2 as <- E2.
        destruct (@utf8_low x 13%N Hx) as [Hu <-].
        { rewrite E1. apply in_or_app. right. left. reflexivity. }
        { lia. }
        rewrite Hu in E1. destruct a as [|z a]; [|destruct a; discriminate].
        injection E1 as <-. exists [], t. auto.
    + destruct (IH Hs _ _ E2) as (p & q & -> & -> & ->). exists (x :: p), q. rewrite enc_cons. auto.
Qed.

Lemma ends_line_enc q : scalars q -> ends_line (enc q) <-> ends_line q.
Proof.
  intros Hs. destruct q as [|x q]; [split; left; reflexivity|].
  apply scalars_cons in Hs. destruct Hs as [Hx Hs].
  destruct (utf8_head (is_scalar_lt _ Hx)) as (y & tl & Eq & Hy & _).
  rewrite enc_cons, Eq. split.
  - intros [H | (d & H)]; [discriminate|]. injection H as -> H.
    destruct (@utf8_low x 10%N Hx) as [_ <-]; [rewrite Eq; left; reflexivity|lia|]. right. eauto.
  - intros [H | (d & H)]; [discriminate|]. injection H as -> H. change (utf8 10%N) with [10%N] in Eq.
    injection Eq as <- <-. right. simpl. eauto.
Qed.

Lemma prefix_len (t pre post p q : text) : t = pre ++ post -> t = p ++ q ->
  length (enc pre) <= length (enc p) <-> length pre <= length p.
Proof.
  intros -> E. apply app_eq_app in E. destruct E as (l & [[-> _]|[-> _]]); rewrite enc_app, !app_length.
  - destruct l as [|x l]; [simpl; lia|]. rewrite enc_cons, app_length, utf8_length. pose proof (len_utf8_pos x). simpl. lia.
  - lia.
Qed.

Lemma location_unique pre line col line' col' :
  location_spec pre line col -> location_spec pre line' col' -> line = line' /\ col = col'.
Proof.
  intros (b1 & c1 & E1 & N1 & B1 & L1 & C1) (b2 & c2 & E2 & N2 & B2 & L2 & C2).
  split; [congruence|]. subst col col'. do 2 f_equal.
  rewrite E1 in E2. apply app_eq_app in E2. destruct E2 as (l & [[-> ->]|[-> ->]]).
  - destruct B1 as [B1 | (b' & B1)].
    + destruct b2; [|discriminate]. simpl in B1. subst l. reflexivity.
    + destruct l as [|x l _] using rev_ind; [reflexivity|]. rewrite app_assoc in B1.
      apply app_inj_tail in B1. destruct B1 as [_ ->].
      exfalso. apply N2. apply in_or_app. left. apply in_or_app. right. left. reflexivity.
  - destruct B2 as [B2 | (b' & B2)].
    + destruct b1; [|discriminate]. simpl in B2. subst l. reflexivity.
    + destruct l as [|x l _] using rev_ind; [reflexivity|]. rewrite app_assoc in B2.
      apply app_inj_tail in B2. destruct B2 as [_ ->].
      exfalso. apply N1. apply in_or_app. left. apply in_or_app. right. left. reflexivity.
Qed.

Lemma walk_spec pre post : scalars pre ->
  location_spec pre (fst (walk (enc pre ++ enc post) (length (enc pre)) 1 1))
                    (snd (walk (enc pre ++ enc post) (length (enc pre)) 1 1)).
Proof.
  intros Hp. destruct (walk_enc (enc post) 1 1 Hp) as (l & c & E & El & Hc).
  rewrite E. simpl. destruct Hc as [[Hni Hc]|(bf & cur & -> & Hni & Hc)].
  - exists [], pre. repeat split; auto.
  - exists (bf ++ [10%N]), cur. rewrite <- app_assoc. repeat split; eauto.
Qed.

Lemma location_exact t s pre post : scalars t -> reachable t s ->
  t = pre ++ post -> bytes_offset s = length (enc pre) ->
  (location_spec pre (fst (line_column s)) (snd (line_column s))
   <-> forall a c, t = a ++ 13%N :: c -> ends_line c -> length pre <= length a).
Proof.
  intros Ht R E O. pose proof (@reach_pos _ _ _ _ Ht R E O) as (Hr & Ho & Hp & Hs).
  assert (Raw : raw_data s = enc t) by (rewrite E, enc_app; exact Hr).
  transitivity (line_column s = walk (raw_data s) (bytes_offset s) 1 1).
  - rewrite Hr, Ho. pose proof (walk_spec post Hp) as W. split.
    + intros L. destruct (location_unique L W) as [A B].
      rewrite (surjective_pairing (line_column s)), A, B. symmetry. apply surjective_pairing.
    + intros ->. exact W.
  - rewrite column_walk by (rewrite Ho, Hr, app_length; lia). rewrite Raw, Ho. split.
    + intros H a c Et En. apply (@prefix_len t pre post a (13%N :: c)); [exact E|exact Et|].
      apply (H (enc a) (enc c)).
      * rewrite Et, enc_app, enc_cons. reflexivity.
      * apply ends_line_enc; [|exact En]. rewrite Et in Ht. apply scalars_app in Ht. destruct Ht as [_ Ht].
        apply scalars_cons in Ht. apply Ht.
    + intros H a c Et En. destruct (enc_cr Ht Et) as (p & q & Ep & -> & ->).
      apply (@prefix_len t pre post p (13%N :: q)); [exact E|exact Ep|].
      apply (H _ _ Ep). apply ends_line_enc; [|exact En]. rewrite Ep in Ht. apply scalars_app in Ht. destruct Ht as [_ Ht].
      apply scalars_cons in Ht. apply Ht.
Qed.

(** ---------------- line starts ---------------- *)
Fixpoint incr (p : nat) (l : list nat) : Prop :=
  match l with [] => True | x :: r => p <= x /\ incr (S x) r end.

Lemma incr_low l : forall p q, incr p l -> q <= p -> incr q l.
Proof. destruct l as [|x l]; simpl; intros p q H L; [trivial|]. split; [lia|apply H]. Qed.
Lemma incr_in l : forall p x, incr p l -> In x l -> p <= x.
Proof.
  induction l as [|y l IH]; intros p x; [easy|]. intros [H1 H2] [-> | H]; [exact H1|].
  apply (IH (S y)) in H; [lia|exact H2].
Qed.
Lemma incr_same l : forall p m, incr p l -> incr p m -> (forall x, In x l <-> In x m) -> l = m.
Proof.
  induction l as [|x l IH]; intros p [|y m] Hl Hm E.
  - reflexivity.
  - exfalso. destruct (E y) as [_ W]. apply W. left. reflexivity.
  - exfalso. destruct (E x) as [W _]. apply W. left. reflexivity.
  - destruct Hl as [L1 L2], Hm as [M1 M2].
    assert (x = y).
    { destruct (proj1 (E x) (or_introl eq_refl)) as [W | W]; [auto|].
      destruct (proj2 (E y) (or_introl eq_refl)) as [W' | W']; [auto|].
      apply (incr_in M2) in W. apply (incr_in L2) in W'. lia. }
    subst y. f_equal. apply (IH (S x)); [exact L2|exact M2|].
    intros z. split; intros Z.
    + pose proof (incr_in L2 Z). destruct (proj1 (E z) (or_intror Z)) as [W | W]; [lia|exact W].
    + pose proof (incr_in M2 Z). destruct (proj2 (E z) (or_intror Z)) as [W | W]; [lia|exact W].
Qed.

Lemma loop_incr ls : forall p, incr p (register_lines_loop ls p).
Proof.
  induction ls as [|l ls IH]; intros p; simpl; [trivial|]. split; [lia|].
  apply (incr_low (p := p + length l + 1)); [apply IH|lia].
Qed.

Lemma loop_exact ls : forall p, register_lines_loop (map strip_cr ls) p = register_lines_loop ls p
  <-> Forall (fun l => strip_cr l = l) (removelast ls).
Proof.
  induction ls as [|l ls IH]; intros p; [split; [constructor|reflexivity]|].
  destruct ls as [|m ls]; [split; [constructor|reflexivity]|].
  change (removelast (l :: m :: ls)) with (l :: removelast (m :: ls)).
  cbn [map register_lines_loop]. split.
  - intros E. injection E as E1 E2.
    assert (strip_cr l = l) as Q.
    { destruct (strip_cases l) as [Q | (l0 & Q & R)]; [exact Q|]. exfalso.
      rewrite R, Q, app_length in E1. simpl in E1. lia. }
    constructor; [exact Q|]. apply (IH (p + length l + 1)). cbn [map register_lines_loop].
    rewrite Q in E2. f_equal. exact E2.
  - intros F. apply Forall_cons_iff in F. destruct F as [Q F]. rewrite Q.
    apply (IH (p + length l + 1)) in F. cbn [map register_lines_loop] in F. f_equal. exact F.
Qed.

(** Every line but the last kept one is free of a final carriage return. *)
Lemma clean_lines n : forall b, length b <= n ->
  Forall (fun l => strip_cr l = l) (removelast (drop_last_empty (split_lf b)))
  <-> (forall a c, b = a ++ 13%N :: 10%N :: c -> c = []).
Proof.
  induction n as [|n IH]; intros b Len.
  - destruct b; [|simpl in Len; lia]. simpl. split; [intros _ a c E; destruct a; discriminate|constructor].
  - destruct (split_lf b) as [|l ls] eqn:E; [exfalso; apply (split_lf_nonempty b E)|].
    destruct (split_first E) as (Nl & Cs). destruct Cs as [[-> ->] | (b' & -> & E')].
    + assert (removelast (drop_last_empty [l]) = []) as -> by (destruct l; reflexivity).
      split; [|constructor]. intros _ a c Ec. exfalso. apply Nl. rewrite Ec. apply in_or_app. right. right. left. reflexivity.
    + destruct b' as [|x b'].
      * simpl in E'. subst ls. cbn [drop_last_empty removelast].
        split; [|constructor]. intros _ a c Ec. destruct c as [|y c]; [reflexivity|]. exfalso.
        apply app_eq_app in Ec. destruct Ec as (m & [[E1 E2] | [E1 E2]]).
        -- destruct m as [|z m]; [discriminate|]. cbn [app] in E2. injection E2 as <- E2.
           destruct m as [|w m]; [discriminate|]. cbn [app] in E2. injection E2 as <- E2.
           apply Nl. rewrite E1. apply in_or_app. right. right. left. reflexivity.
        -- destruct m as [|z m]; [discriminate|]. injection E2 as <- E2. destruct m; discriminate.
      * assert (Keep : exists k ks, drop_last_empty (split_lf (x :: b')) = k :: ks).
        { simpl. destruct (x =? 10)%N.
          - destruct (split_lf b') as [|p q] eqn:Q; [exfalso; apply (split_lf_nonempty _ Q)|].
            change (drop_last_empty ([] :: p :: q)) with ([] :: drop_last_empty (p :: q)). eauto.
          - destruct (split_lf b') as [|p q] eqn:Q; [exfalso; apply (split_lf_nonempty _ Q)|].
            destruct q as [|p' q]; simpl; eauto. }
        destruct Keep as (k & ks & Keep).
        assert (D : drop_last_empty (l :: ls) = l :: k :: ks).
        { rewrite <- E', <- Keep. destruct (split_lf (x :: b')) eqn:Q; [exfalso; apply (split_lf_nonempty _ Q)|reflexivity]. }
        rewrite D. change (removelast (l :: k :: ks)) with (l :: removelast (k :: ks)).
        rewrite Forall_cons_iff. rewrite <- Keep.
        rewrite app_length in Len. cbn [length] in Len. rewrite IH by (cbn [length]; lia). split.
        -- intros [Q F] a c Ec. apply app_eq_app in Ec. destruct Ec as (m & [[E1 E2] | [E1 E2]]).
           ++ destruct m as [|z m]; [discriminate|]. cbn [app] in E2. injection E2 as <- E2.
              destruct m as [|w m].
              ** exfalso. rewrite E1, strip_snoc in Q. apply (f_equal (@length _)) in Q. rewrite app_length in Q. simpl in Q. lia.
              ** cbn [app] in E2. injection E2 as <- E2. exfalso. apply Nl. rewrite E1. apply in_or_app. right. right. left. reflexivity.
           ++ destruct m as [|z m]; [discriminate|]. cbn [app] in E2. injection E2 as <- E2. apply (F m c E2).
        -- intros W. split.
           ++ destruct (strip_cases l) as [Q | (l0 & Q & R)]; [exact Q|]. exfalso.
              assert (x :: b' = []) as Bad; [|discriminate].
              apply (W l0). rewrite Q, <- app_assoc. reflexivity.
           ++ intros a c Ec. apply (W (l ++ 10%N :: a)). rewrite Ec, <- app_assoc. reflexivity.
Qed.

Lemma starts_exact t start : scalars t ->
  (forall x, In x (register_lines start (enc t)) <-> exists p, x = start + p /\ is_line_start (enc t) p)
  <-> (forall a c, t = a ++ 13%N :: 10%N :: c -> c = []).
Proof.
  intros Hs.
  assert (T : forall x, In x (line_starts true (enc t) start) <-> exists p, x = start + p /\ is_line_start (enc t) p).
  { intros x. rewrite line_starts_in. split; intros (k & -> & H).
    - exists k. split; [reflexivity|]. split; [tauto|]. destruct H as [_ [[-> _]|H]]; auto.
    - exists k. split; [reflexivity|]. destruct H as [H1 [->|H]]; auto. }
  assert (Truth : register_lines_loop (drop_last_empty (split_lf (enc t))) start = line_starts true (enc t) start).
  { destruct (split_lf (enc t)) as [|l ls] eqn:E; [exfalso; apply (split_lf_nonempty _ E)|].
    destruct (register_split _ E (pad := 0) (st := true) start (fun _ => eq_refl)) as [_ H2]. exact H2. }
  transitivity (register_lines start (enc t) = line_starts true (enc t) start).
  - split.
    + intros H. apply (@incr_same _ start).
      * apply loop_incr.
      * rewrite <- Truth. apply loop_incr.
      * intros x. rewrite H, T. reflexivity.
    + intros ->. exact T.
  - rewrite <- Truth. unfold register_lines, lines. rewrite loop_exact, (@clean_lines (length (enc t))) by lia.
    split.
    + intros H a c E. assert (Z : enc c = []).
      { apply (H (enc a)). rewrite E, enc_app, !enc_cons. reflexivity. }
      destruct c as [|x c]; [reflexivity|]. rewrite enc_cons in Z. pose proof (utf8_length x) as L. pose proof (len_utf8_pos x).
      apply app_eq_nil in Z. destruct Z as [Z _]. rewrite Z in L. simpl in L. lia.
    + intros H a c E. destruct (enc_cr Hs E) as (p & q & -> & Eq & ->).
      destruct q as [|y q]; [discriminate|].
      apply scalars_app in Hs. destruct Hs as [_ Hs]. apply scalars_cons in Hs. destruct Hs as [_ Hs].
      apply scalars_cons in Hs. destruct Hs as [Hy Hs].
      destruct (utf8_head (is_scalar_lt _ Hy)) as (z & tl & Ez & _ & _).
      rewrite enc_cons, Ez in Eq. injection Eq as <- Eq.
      destruct (@utf8_low y 10%N Hy) as [Hu <-]; [rewrite Ez; left; reflexivity|lia|].
      rewrite Hu in Ez. injection Ez as <-. simpl in Eq. rewrite (H p q eq_refl) in Eq. exact Eq.
Qed.
