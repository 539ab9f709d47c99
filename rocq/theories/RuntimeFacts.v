(** Facts about the runtime crate in the form used by the property theorems. *)
From Verif Require Import Base Utf8 Stream ParseState.
Set Implicit Arguments.

(** Every stream a program can obtain from the string [t] through the public API of
    runtime/src/stream.rs:17-54 (positions are cloned freely). *)
Inductive reachable (t : text) : StrStream -> Prop :=
| reach_start : reachable t (str_stream t)
| reach_next s o s' : reachable t s -> next s = Ret (o, s') -> reachable t s'
| reach_prefix s p b s' : reachable t s -> scalars p -> consume_prefix s (enc p) = (b, s') -> reachable t s'.

Definition starts_with (t p : text) : Prop := exists rest, t = p ++ rest.

Lemma starts_with_dec t p : {rest | t = p ++ rest} + {~ starts_with t p}.
Proof.
  revert t; induction p as [|c p IH]; intros t.
  - left. exists t. reflexivity.
  - destruct t as [|d t].
    + right. intros (r & H). discriminate.
    + destruct (N.eq_dec c d) as [->|Hn].
      * destruct (IH t) as [[r ->]|Hno].
        -- left. exists r. reflexivity.
        -- right. intros (r & H). injection H; intros. apply Hno. exists r. assumption.
      * right. intros (r & H). injection H; intros. congruence.
Qed.

Lemma reachable_at t s : scalars t -> reachable t s ->
  exists pre post, t = pre ++ post /\ at_pos s pre post.
Proof.
  intros Ht H. induction H as [|s o s' H IH E|s p b s' H IH Hp E].
  - exists [], t. split; [reflexivity|]. apply at_pos_start. exact Ht.
  - destruct IH as (pre & post & -> & Hat). destruct post as [|c post].
    + rewrite (next_nil Hat) in E. injection E; intros; subst. exists pre, []. auto.
    + destruct (next_cons Hat) as (s1 & E1 & Hat1 & _). rewrite E1 in E. injection E; intros; subst.
      exists (pre ++ [c]), post. rewrite <- app_assoc. auto.
  - destruct IH as (pre & post & -> & Hat).
    destruct (starts_with_dec post p) as [[rest ->]|Hno].
    + destruct (consume_prefix_true _ _ Hat) as (s1 & E1 & Hat1 & _). rewrite E1 in E.
      injection E; intros; subst. exists (pre ++ p), rest. rewrite <- app_assoc. auto.
    + rewrite (consume_prefix_false Hat Hp) in E.
      * injection E; intros; subst. exists pre, post. auto.
      * intros rest ->. apply Hno. exists rest. reflexivity.
Qed.

Lemma next_reads_text t n : scalars t ->
  exists s, next_n n (str_stream t) = Ret (map Some (firstn n t) ++ repeat None (n - length t), s)
    /\ bytes_offset s = length (enc (firstn n t)).
Proof.
  intros H. destruct (next_n_at n (at_pos_start H)) as (s & E & Hat & _).
  exists s. split; [exact E|]. destruct Hat as (_ & O & _). exact O.
Qed.

(** Reading from any reachable stream: the stream has read [pre], [post] is left. *)
Lemma next_at_any t s : scalars t -> reachable t s ->
  exists pre post s', t = pre ++ post /\ bytes_offset s = length (enc pre)
    /\ next s = Ret (hd_error post, s') /\ bytes_offset s' = length (enc (pre ++ firstn 1 post))
    /\ raw_data s' = raw_data s.
Proof.
  intros Ht H. destruct (reachable_at Ht H) as (pre & post & -> & Hat).
  exists pre, post. destruct post as [|c post].
  - exists s. rewrite (next_nil Hat). simpl. rewrite app_nil_r. destruct Hat as (_ & O & _). auto.
  - destruct (next_cons Hat) as (s1 & E1 & Hat1 & Hraw). exists s1. rewrite E1.
    destruct Hat as (_ & O & _). destruct Hat1 as (_ & O1 & _). auto.
Qed.

Lemma consume_prefix_any t s p : scalars t -> scalars p -> reachable t s ->
  exists pre post, t = pre ++ post /\ bytes_offset s = length (enc pre) /\
    ((starts_with post p /\ exists s', consume_prefix s (enc p) = (true, s')
        /\ bytes_offset s' = length (enc (pre ++ p)) /\ raw_data s' = raw_data s)
     \/ (~ starts_with post p /\ consume_prefix s (enc p) = (false, s))).
Proof.
  intros Ht Hp H. destruct (reachable_at Ht H) as (pre & post & -> & Hat).
  exists pre, post. split; [reflexivity|]. split; [destruct Hat as (_ & O & _); exact O|].
  destruct (starts_with_dec post p) as [[rest ->]|Hno].
  - left. split; [exists rest; reflexivity|].
    destruct (consume_prefix_true _ _ Hat) as (s1 & E1 & (_ & O1 & _) & Hraw). exists s1. auto.
  - right. split; [exact Hno|]. apply consume_prefix_false with (1 := Hat); [exact Hp|].
    intros rest ->. apply Hno. exists rest. reflexivity.
Qed.

Lemma reach_pos t s pre post : scalars t -> reachable t s -> t = pre ++ post ->
  bytes_offset s = length (enc pre) -> at_pos s pre post.
Proof.
  intros Ht R E O. destruct (reachable_at Ht R) as (p & q & F & A).
  assert (Hs : scalars (pre ++ post)) by (rewrite <- E; exact Ht).
  pose proof (pos_of_at_pos pre post Hs) as Y.
  assert (s = pos_of pre post) as ->; [|exact Y].
  rewrite (at_pos_pos_of A). unfold pos_of. rewrite <- E, <- F.
  rewrite <- O. f_equal. destruct A as (_ & O' & _). congruence.
Qed.

(** The number of characters read is determined by the byte offset. *)
Lemma order_any t s1 s2 pre1 post1 pre2 post2 : scalars t -> reachable t s1 -> reachable t s2 ->
  t = pre1 ++ post1 -> bytes_offset s1 = length (enc pre1) ->
  t = pre2 ++ post2 -> bytes_offset s2 = length (enc pre2) ->
  stream_cmp s1 s2 = Nat.compare (length pre1) (length pre2)
  /\ stream_eqb s1 s2 = (length pre1 =? length pre2)
  /\ (has_next s1 = true <-> exists c s', next s1 = Ret (Some c, s'))
  /\ (has_next s1 = true <-> post1 <> []).
Proof.
  intros Ht R1 R2 E1 O1 E2 O2.
  pose proof (@reach_pos _ _ _ _ Ht R1 E1 O1) as B1. pose proof (@reach_pos _ _ _ _ Ht R2 E2 O2) as B2.
  pose proof (at_pos_order B1 B2 (eq_sym E1) (eq_sym E2)) as C.
  split; [exact C|]. split; [|split].
  - unfold stream_cmp in C. unfold stream_eqb.
    destruct (bytes_offset s1 =? bytes_offset s2) eqn:Q, (length pre1 =? length pre2) eqn:W; try reflexivity.
    + apply Nat.eqb_eq in Q. apply Nat.eqb_neq in W. rewrite Q, Nat.compare_refl in C.
      symmetry in C. apply Nat.compare_eq in C. contradiction.
    + apply Nat.eqb_neq in Q. apply Nat.eqb_eq in W. rewrite W, Nat.compare_refl in C.
      apply Nat.compare_eq in C. contradiction.
  - rewrite (has_next_at B1). destruct post1 as [|c post1].
    + split; [discriminate|]. intros (c & s' & H). rewrite (next_nil B1) in H. discriminate.
    + split; [|reflexivity]. intros _. destruct (next_cons B1) as (s' & H & _). eauto.
  - rewrite (has_next_at B1). destruct post1; split; congruence.
Qed.

Lemma location_any t s pre post : scalars t -> reachable t s -> no_eol_cr t ->
  t = pre ++ post -> bytes_offset s = length (enc pre) ->
  location_spec pre (fst (line_column s)) (snd (line_column s)).
Proof.
  intros Ht R Hcr E O. pose proof (@reach_pos _ _ _ _ Ht R E O) as Y.
  apply line_column_spec with (1 := Y). rewrite <- E. exact Hcr.
Qed.

(** CRLF: position 2 of "\r\n" is the first column of line 2; the code answers line 1 or column 2. *)
Lemma location_crlf_refuted :
  exists t s pre post, scalars t /\ reachable t s /\ t = pre ++ post /\ bytes_offset s = length (enc pre)
    /\ ~ location_spec pre (fst (line_column s)) (snd (line_column s)).
Proof.
  exists [97; 13; 10; 98]%N, (mkStr (enc [97; 13; 10; 98]%N) 3), [97; 13; 10]%N, [98]%N.
  split; [repeat constructor|]. split.
  - apply (@reach_prefix _ (str_stream [97; 13; 10; 98]%N) [97; 13; 10]%N true); [constructor|repeat constructor|reflexivity].
  - split; [reflexivity|]. split; [reflexivity|]. intros (before & cur & E & Hni & Hb & Hl & Hc).
    vm_compute in Hc. destruct Hb as [->|(b' & ->)].
    + simpl in E. subst cur. apply Hni. vm_compute. auto.
    + destruct cur as [|x cur]; [vm_compute in Hc; discriminate|].
      assert (length [97; 13; 10]%N = length ((b' ++ [10%N]) ++ x :: cur)) as L by (rewrite E; reflexivity).
      rewrite !app_length in L. simpl in L.
      destruct b' as [|b0 b']; [simpl in E; discriminate|].
      destruct b' as [|b1 b']; simpl in L; [|lia].
      simpl in E. discriminate.
Qed.

(** Printing succeeds exactly when the 10-byte cut of the unread text is a character boundary. *)
Definition cut10_ok (post : text) : Prop := exists a b, post = a ++ b
  /\ length (enc a) = Nat.min (length (enc post)) 10.

Lemma debug_spec t s pre post items : scalars t -> t = pre ++ post -> reachable t s ->
  bytes_offset s = length (enc pre) ->
  (cut10_ok post -> exists a b, post = a ++ b /\ length (enc a) = Nat.min (length (enc post)) 10
     /\ debug_expectation (mkExp items s)
        = Ret (line_column s, match post with [] => None | _ => Some (enc a) end, or_list items))
  /\ (~ cut10_ok post -> debug_expectation (mkExp items s) = Panic).
Proof.
  intros Ht E R O. pose proof (@reach_pos _ _ _ _ Ht R E O) as Y.
  assert (Hpost : scalars post) by (destruct Y as (_ & _ & _ & H); exact H).
  unfold debug_expectation. cbn [exp_at exp_items]. rewrite expected_items_ok. cbn [bind].
  rewrite (code_snippet_spec 10 Y). split.
  - intros (a & b & Eab & L). exists a, b. split; [exact Eab|]. split; [exact L|]. destruct post as [|c post]; [reflexivity|].
    rewrite <- L. rewrite Eab. rewrite enc_app.
    assert (Hb : scalars b) by (rewrite Eab in Hpost; apply scalars_app in Hpost; tauto).
    rewrite boundary_enc by exact Hb. rewrite firstn_app, firstn_all, Nat.sub_diag. simpl.
    rewrite app_nil_r. reflexivity.
  - intros Hno. destruct post as [|c post].
    { exfalso. apply Hno. exists [], []. auto. }
    destruct (is_char_boundary _ _) eqn:B; [|reflexivity]. exfalso. apply Hno.
    destruct (boundary_split _ Hpost B) as (a & b & Eab & L). exists a, b. split; [exact Eab|]. symmetry. exact L.
Qed.

Lemma debug_ascii t s pre post items : scalars t -> t = pre ++ post -> reachable t s ->
  bytes_offset s = length (enc pre) -> ascii (firstn 10 post) ->
  exists loc sn it, debug_expectation (mkExp items s) = Ret (loc, sn, it).
Proof.
  intros Ht E R O Ha. destruct (@debug_spec _ _ _ _ items Ht E R O) as [H _].
  destruct H as (a & b & _ & _ & H); [|eauto].
  exists (firstn 10 post), (skipn 10 post). split; [symmetry; apply firstn_skipn|].
  rewrite (enc_ascii Ha), firstn_length.
  rewrite <- (firstn_skipn 10 post) at 2. rewrite enc_app, app_length, (enc_ascii Ha), firstn_length.
  destruct (Nat.le_gt_cases (length post) 10).
  - rewrite skipn_all2 by lia. change (length (enc [])) with 0. lia.
  - lia.
Qed.

Lemma debug_refuted : exists t items, scalars t /\
  debug_expectation (mkExp items (str_stream t)) = Panic.
Proof. exists [97;97;97;97;97;97;97;97;97;233]%N, [[97%N]]. split; [repeat constructor|reflexivity]. Qed.

Lemma errors_farthest V t s (ops : list (op V)) st errs : reachable t s ->
  run (ps_new s) ops = Ret (st, errs) ->
  bytes_offset (farthest_read st) = farthest_of (bytes_offset s) (offs errs)
  /\ expected st = messages_at (bytes_offset (farthest_read st)) (offs errs).
Proof.
  intros _ H. apply run_errors in H. destruct (record_all_spec errs s) as [H1 H2].
  unfold err_info in H. simpl in H. rewrite <- H in H1, H2. simpl in *. split; [exact H1|].
  rewrite H2, H1. reflexivity.
Qed.

(** [farthest_of] is the maximum. *)
Lemma farthest_of_max start errs :
  (forall e, In e errs -> fst e <= farthest_of start errs) /\ start <= farthest_of start errs
  /\ (farthest_of start errs = start \/ exists e, In e errs /\ fst e = farthest_of start errs).
Proof.
  destruct (farthest_of_ge errs start) as [H1 H2]. split; [rewrite Forall_forall in H2; exact H2|].
  split; [exact H1|]. clear H1 H2. revert start. induction errs as [|e errs IH]; intros start; [left; reflexivity|].
  unfold farthest_of in *. simpl. destruct (IH (Nat.max start (fst e))) as [H|(e' & Hin & H)].
  - rewrite H. destruct (Nat.max_spec start (fst e)) as [[_ M]|[_ M]]; rewrite M.
    + right. exists e. simpl. auto.
    + left. reflexivity.
  - right. exists e'. simpl. auto.
Qed.

(** ---- file maps ---- *)
Definition fm_at (start : N) (t : text) (s : StrStream) : FileMapStream := mkFM start s.

Lemma fm_span_spec start t s1 s2 pre1 post1 pre2 post2 : scalars t ->
  reachable t s1 -> reachable t s2 ->
  t = pre1 ++ post1 -> bytes_offset s1 = length (enc pre1) ->
  t = pre2 ++ post2 -> bytes_offset s2 = length (enc pre2) ->
  (start + N.of_nat (length (enc t)) < 4294967296)%N ->
  fm_span (mkFM start s1) (mkFM start s2)
  = ((start + N.of_nat (length (enc pre1)))%N, (start + N.of_nat (length (enc pre2)))%N).
Proof.
  intros Ht R1 R2 E1 O1 E2 O2 Hb. unfold fm_span, abs_pos. simpl. rewrite O1, O2.
  assert (length (enc pre1) <= length (enc t)) by (rewrite E1, enc_app, app_length; lia).
  assert (length (enc pre2) <= length (enc t)) by (rewrite E2, enc_app, app_length; lia).
  unfold u32. rewrite (N.mod_small (N.of_nat (length (enc pre1)))) by lia.
  rewrite (N.mod_small (N.of_nat (length (enc pre2)))) by lia.
  rewrite !N.mod_small by lia. reflexivity.
Qed.

(** Line starts, declaratively: offset p is a line start of a text iff it is inside the text and it
    is 0 or follows a line feed. *)
Definition is_line_start (b : list byte) (p : nat) : Prop :=
  p < length b /\ (p = 0 \/ exists q, p = S q /\ nth_error b q = Some 10%N).

Lemma line_starts_in b : forall at_start p x, In x (line_starts at_start b p) <->
  exists k, x = p + k /\ k < length b /\ ((k = 0 /\ at_start = true) \/ exists q, k = S q /\ nth_error b q = Some 10%N).
Proof.
  induction b as [|y b IH]; intros at_start p x; simpl.
  - split; [easy|]. intros (k & _ & H & _). lia.
  - rewrite in_app_iff, IH. split.
    + intros [H|(k & -> & Hk & H)].
      * destruct at_start; simpl in H; [|easy]. destruct H as [<-|[]]. exists 0. split; [lia|]. split; [lia|]. auto.
      * exists (S k). split; [lia|]. split; [lia|]. right. exists k. split; [reflexivity|].
        destruct H as [[-> Hy]|(q & -> & Hq)]; [|exact Hq]. simpl. apply N.eqb_eq in Hy. congruence.
    + intros (k & -> & Hk & [[-> ->]|(q & -> & Hq)]).
      * left. left. lia.
      * right. exists q. split; [lia|]. split; [lia|]. destruct q as [|q]; simpl in Hq.
        -- left. injection Hq; intros ->. auto.
        -- right. exists q. auto.
Qed.

Lemma line_starts_sorted b : forall at_start p, Forall (fun x => p <= x) (line_starts at_start b p)
  /\ (forall i j x y, i < j -> nth_error (line_starts at_start b p) i = Some x ->
        nth_error (line_starts at_start b p) j = Some y -> x < y).
Proof.
  induction b as [|z b IH]; intros at_start p; simpl.
  - split; [constructor|]. intros [|i] j x y _ H; discriminate.
  - destruct (IH (z =? 10)%N (S p)) as [H1 H2]. destruct at_start; simpl.
    + split.
      * constructor; [lia|]. eapply Forall_impl; [|exact H1]. simpl; intros; lia.
      * intros [|i] [|j] x y Hij Hx Hy; try lia; simpl in *.
        -- injection Hx; intros <-. apply nth_error_In in Hy. rewrite Forall_forall in H1. apply H1 in Hy. lia.
        -- apply (H2 i j); auto; lia.
    + split; [|exact H2]. eapply Forall_impl; [|exact H1]. simpl; intros; lia.
Qed.

Lemma register_lines_props t start : scalars t -> no_eol_cr t ->
  (forall x, In x (register_lines start (enc t)) <-> exists p, x = start + p /\ is_line_start (enc t) p)
  /\ (forall i j x y, i < j -> nth_error (register_lines start (enc t)) i = Some x ->
        nth_error (register_lines start (enc t)) j = Some y -> x < y).
Proof.
  intros Hs Hc. rewrite register_lines_spec by (apply no_eol_cr_enc; assumption). split.
  - intros x. rewrite line_starts_in. split; intros (k & -> & H).
    + exists k. split; [reflexivity|]. split; [tauto|]. destruct H as [_ [[-> _]|H]]; auto.
    + exists k. split; [reflexivity|]. destruct H as [H1 [->|H]]; auto.
  - apply line_starts_sorted.
Qed.

Lemma register_lines_crlf_refuted : exists t, scalars t /\
  ~ (forall x, In x (register_lines 0 (enc t)) <-> exists p, x = 0 + p /\ is_line_start (enc t) p).
Proof.
  exists [97; 13; 10; 98]%N. split; [repeat constructor|]. intros H.
  destruct (H 3) as [_ H2]. assert (In 3 (register_lines 0 (enc [97; 13; 10; 98]%N))) as K.
  { apply H2. exists 3. split; [reflexivity|]. split; [vm_compute; lia|]. right. exists 2. split; reflexivity. }
  vm_compute in K. lia.
Qed.
