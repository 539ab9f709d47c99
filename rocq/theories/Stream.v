(** Model of runtime/src/str_stream.rs, runtime/src/lib.rs (make_span) and
    runtime/src/file_map_stream.rs. *)
From Verif Require Import Base Utf8.
Set Implicit Arguments.

(** str_stream.rs:41-45.  [raw_data] is the byte content of the [&str]. *)
Record StrStream := mkStr { raw_data : list byte; bytes_offset : nat }.

(** str_stream.rs:49-54 [StrStream::new] (and 26-28 [stream]) on the string with characters [t]. *)
Definition str_stream (t : text) : StrStream := mkStr (enc t) 0.

(** str_stream.rs:81-83.  [chars().next()] on the remaining bytes: [None] on the empty slice. *)
Definition current_char (s : StrStream) : res (option char) :=
  b <- slice_from (raw_data s) (bytes_offset s) ;;
  Ret (next_code_point b).

(** str_stream.rs:89-97.  [unwrap] on [None] panics. *)
Definition next (s : StrStream) : res (option char * StrStream) :=
  if bytes_offset s <? length (raw_data s) then
    oc <- current_char s ;;
    match oc with
    | Some c => Ret (Some c, mkStr (raw_data s) (bytes_offset s + len_utf8 c))
    | None => Panic
    end
  else Ret (None, s).

(** str_stream.rs:102-105, 112-115, 120-123 (same raw data assumed, as the debug assertion does). *)
Definition stream_eqb (a b : StrStream) : bool := bytes_offset a =? bytes_offset b.
Definition stream_cmp (a b : StrStream) : comparison := Nat.compare (bytes_offset a) (bytes_offset b).
Definition stream_gtb (a b : StrStream) : bool := bytes_offset b <? bytes_offset a.

(** std: [str::lines] of the compiler pinned by the repo (nightly-2021-01-06):
    [split_terminator('\n')], then one trailing '\r' is stripped from every piece. *)
Fixpoint split_lf (b : list byte) : list (list byte) :=
  match b with
  | [] => [[]]
  | x :: r =>
    if (x =? 10)%N then [] :: split_lf r
    else match split_lf r with
         | [] => [[x]]
         | l :: ls => (x :: l) :: ls
         end
  end.
Fixpoint drop_last_empty (ls : list (list byte)) : list (list byte) :=
  match ls with
  | [] => []
  | [l] => match l with [] => [] | _ => [l] end
  | l :: r => l :: drop_last_empty r
  end.
Definition strip_cr (l : list byte) : list byte :=
  match rev l with
  | x :: r => if (x =? 13)%N then rev r else l
  | [] => l
  end.
Definition lines (b : list byte) : list (list byte) :=
  map strip_cr (drop_last_empty (split_lf b)).

(** str_stream.rs:63-75: the loop over [lines()] with its two mutable variables. *)
Fixpoint lc_loop (ls : list nat) (remaining line_no : nat) : nat * nat :=
  match ls with
  | [] => (line_no, remaining + 1)
  | n :: r =>
    let line_len := n + 1 in
    if remaining <? line_len then (line_no, remaining + 1)
    else lc_loop r (remaining - line_len) (line_no + 1)
  end.
Definition line_column (s : StrStream) : nat * nat :=
  lc_loop (map (@length byte) (lines (raw_data s))) (bytes_offset s) 1.

(** str_stream.rs:136-146.  "<end-of-file>" is kept symbolic as [None]. *)
Definition code_snippet (s : StrStream) (len_hint : nat) : res (option (list byte)) :=
  let total_len := length (raw_data s) in
  let current_offset := bytes_offset s in
  if current_offset =? total_len then Ret None
  else
    let len := Nat.min (total_len - current_offset) len_hint in
    b <- slice_from (raw_data s) current_offset ;;
    c <- slice_to b len ;;
    Ret (Some c).

(** str_stream.rs:151-162.  [prefix] is the byte content of the literal.  The byte range
    [current..end] panics when current > end or end > len; the guard excludes the latter. *)
Definition consume_prefix (s : StrStream) (prefix : list byte) : bool * StrStream :=
  let current_offset := bytes_offset s in
  let end_offset := current_offset + length prefix in
  if (end_offset <=? length (raw_data s)) &&
     bytes_eqb (firstn (end_offset - current_offset) (skipn current_offset (raw_data s))) prefix
  then (true, mkStr (raw_data s) end_offset)
  else (false, s).

(** str_stream.rs:167-169. *)
Definition has_next (s : StrStream) : bool := bytes_offset s <? length (raw_data s).

(** runtime/src/lib.rs:32-36 [make_span]; str_stream.rs:175-179 [stream_span]: offsets are cast
    to u32.  A span is its two bounds. *)
Definition u32 (n : nat) : N := (N.of_nat n mod 4294967296)%N.
Definition stream_span (a b : StrStream) : N * N := (u32 (bytes_offset a), u32 (bytes_offset b)).

(** ------------------------------------------------------------------ *)
(** Specification vocabulary: the stream [s] stands between [pre] (already read) and [post]. *)
Definition at_pos (s : StrStream) (pre post : text) : Prop :=
  raw_data s = enc pre ++ enc post /\ bytes_offset s = length (enc pre)
  /\ scalars pre /\ scalars post.

Definition pos_of (pre post : text) : StrStream := mkStr (enc (pre ++ post)) (length (enc pre)).

Lemma at_pos_pos_of s pre post : at_pos s pre post -> s = pos_of pre post.
Proof.
  destruct s as [r o]. intros (H1 & H2 & _). simpl in *. unfold pos_of. rewrite enc_app. congruence.
Qed.

Lemma pos_of_at_pos pre post : scalars (pre ++ post) -> at_pos (pos_of pre post) pre post.
Proof. intros H. apply scalars_app in H. unfold at_pos, pos_of. simpl. rewrite enc_app. tauto. Qed.

Lemma at_pos_start t : scalars t -> at_pos (str_stream t) [] t.
Proof. intros H. repeat split; try assumption; try reflexivity. constructor. Qed.

Lemma next_cons s pre c post : at_pos s pre (c :: post) ->
  exists s', next s = Ret (Some c, s') /\ at_pos s' (pre ++ [c]) post /\ raw_data s' = raw_data s.
Proof.
  intros (Hr & Ho & Hp & Hs). apply scalars_cons in Hs. destruct Hs as [Hc Hs].
  unfold next, current_char. rewrite Hr, Ho.
  assert (L : (length (enc pre) <? length (enc pre ++ enc (c :: post))) = true).
  { rewrite enc_cons, !app_length, utf8_length. pose proof (len_utf8_pos c). apply Nat.ltb_lt. lia. }
  rewrite L, slice_from_enc by (apply scalars_cons; auto).
  cbn [bind]. rewrite enc_cons, next_code_point_utf8 by (apply is_scalar_lt; exact Hc).
  eexists. split; [reflexivity|]. cbn [raw_data]. split; [|reflexivity].
  unfold at_pos. cbn [raw_data bytes_offset]. repeat split.
  - rewrite enc_app, <- app_assoc. simpl. rewrite app_nil_r. reflexivity.
  - rewrite enc_app, app_length. simpl. rewrite app_nil_r, utf8_length. reflexivity.
  - apply scalars_app. split; [exact Hp|]. apply scalars_cons. split; [exact Hc|constructor].
  - exact Hs.
Qed.

Lemma next_nil s pre : at_pos s pre [] -> next s = Ret (None, s).
Proof.
  intros (Hr & Ho & _). unfold next. rewrite Hr, Ho. simpl. rewrite app_nil_r, Nat.ltb_irrefl. reflexivity.
Qed.

Lemma consume_prefix_true s pre p post : at_pos s pre (p ++ post) ->
  exists s', consume_prefix s (enc p) = (true, s') /\ at_pos s' (pre ++ p) post
             /\ raw_data s' = raw_data s.
Proof.
  intros (Hr & Ho & Hp & Hs). apply scalars_app in Hs. destruct Hs as [Hs1 Hs2].
  unfold consume_prefix. rewrite Hr, Ho, enc_app.
  replace (_ <=? _) with true by (symmetry; apply Nat.leb_le; rewrite !app_length; lia).
  rewrite skipn_app, skipn_all, Nat.sub_diag. simpl skipn. cbn [app].
  replace (length (enc pre) + length (enc p) - length (enc pre)) with (length (enc p)) by lia.
  rewrite firstn_app, firstn_all, Nat.sub_diag. simpl firstn. rewrite app_nil_r.
  rewrite (proj2 (bytes_eqb_eq _ _) eq_refl). cbn [andb].
  eexists. split; [reflexivity|]. split; [|reflexivity]. unfold at_pos. simpl. repeat split.
  - rewrite enc_app, app_assoc. reflexivity.
  - rewrite enc_app, app_length. reflexivity.
  - apply scalars_app. auto.
  - exact Hs2.
Qed.

Lemma consume_prefix_false s pre p post : at_pos s pre post -> scalars p ->
  (forall rest, post <> p ++ rest) -> consume_prefix s (enc p) = (false, s).
Proof.
  intros Hat Hp Hno. pose proof Hat as (Hr & Ho & Hpre & Hs). unfold consume_prefix. rewrite Hr, Ho.
  destruct (_ <=? _) eqn:L; [|reflexivity].
  destruct (bytes_eqb _ _) eqn:E; [|reflexivity]. exfalso.
  apply bytes_eqb_eq in E. rewrite skipn_app, skipn_all, Nat.sub_diag in E. simpl in E.
  rewrite Nat.add_comm, Nat.add_sub in E.
  assert (enc post = enc p ++ skipn (length (enc p)) (enc post)) as E2.
  { rewrite <- E at 1. symmetry. apply firstn_skipn. }
  apply enc_prefix in E2; try assumption. destruct E2 as (q & -> & _).
  apply (Hno q). reflexivity.
Qed.

Lemma has_next_at s pre post : at_pos s pre post -> has_next s = match post with [] => false | _ => true end.
Proof.
  intros (Hr & Ho & _). unfold has_next. rewrite Hr, Ho, app_length.
  destruct post as [|c post].
  - simpl. apply Nat.ltb_ge. lia.
  - apply Nat.ltb_lt. rewrite enc_cons, app_length, utf8_length. pose proof (len_utf8_pos c). lia.
Qed.

(** n successive calls of [next], with their outputs. *)
Fixpoint next_n (n : nat) (s : StrStream) : res (list (option char) * StrStream) :=
  match n with
  | 0 => Ret ([], s)
  | S n => '(o, s1) <- next s ;; '(os, s2) <- next_n n s1 ;; Ret (o :: os, s2)
  end.

Lemma next_n_at n : forall s pre post, at_pos s pre post ->
  exists s', next_n n s = Ret (map Some (firstn n post) ++ repeat None (n - length post), s')
             /\ at_pos s' (pre ++ firstn n post) (skipn n post) /\ raw_data s' = raw_data s.
Proof.
  induction n as [|n IH]; intros s pre post H.
  - exists s. simpl. rewrite app_nil_r. auto.
  - destruct post as [|c post].
    + pose proof (next_nil H) as E. simpl next_n. rewrite E. cbn [bind].
      destruct (IH _ _ _ H) as (s' & E' & H' & R'). rewrite E'. cbn [bind].
      exists s'. rewrite firstn_nil in *. rewrite skipn_nil in *.
      split; [|auto]. f_equal. simpl. rewrite Nat.sub_0_r. reflexivity.
    + destruct (next_cons H) as (s1 & E & H1 & R1). simpl next_n. rewrite E. cbn [bind].
      destruct (IH _ _ _ H1) as (s' & E' & H' & R'). rewrite E'. cbn [bind].
      exists s'. rewrite <- app_assoc in H'. split; [reflexivity|]. split; [exact H'|congruence].
Qed.

Lemma at_pos_order s1 s2 t pre1 post1 pre2 post2 :
  at_pos s1 pre1 post1 -> at_pos s2 pre2 post2 -> pre1 ++ post1 = t -> pre2 ++ post2 = t ->
  stream_cmp s1 s2 = Nat.compare (length pre1) (length pre2).
Proof.
  intros (_ & O1 & _) (_ & O2 & _) E1 E2. unfold stream_cmp. rewrite O1, O2. clear O1 O2. subst t.
  revert pre2 post2 post1 E2; induction pre1 as [|c p1 IH]; intros [|d p2] post2 post1 E.
  - reflexivity.
  - pose proof (utf8_length d). pose proof (len_utf8_pos d).
    rewrite enc_cons, app_length.
    transitivity Lt; [apply Nat.compare_lt_iff; simpl; lia|reflexivity].
  - pose proof (utf8_length c). pose proof (len_utf8_pos c).
    rewrite enc_cons, app_length.
    transitivity Gt; [apply Nat.compare_gt_iff; simpl; lia|reflexivity].
  - simpl in E. injection E; intros E' ->. specialize (IH _ _ _ E').
    rewrite !enc_cons, !app_length. cbn [length Nat.compare]. rewrite <- IH.
    destruct (Nat.compare_spec (length (enc p1)) (length (enc p2)));
      [apply Nat.compare_eq_iff|apply Nat.compare_lt_iff|apply Nat.compare_gt_iff]; lia.
Qed.

(** ---------------- lines and columns ---------------- *)
(** Byte walk: the reference computation used in proofs. *)
Fixpoint walk (b : list byte) (off line col : nat) : nat * nat :=
  match off, b with
  | S n, x :: b => if (x =? 10)%N then walk b n (line + 1) 1 else walk b n line (col + 1)
  | _, _ => (line, col)
  end.

Lemma split_lf_nonempty b : split_lf b <> [].
Proof. destruct b as [|x b]; simpl; [discriminate|]. destruct (x =? 10)%N; [discriminate|].
       destruct (split_lf b); discriminate. Qed.

Lemma lc_walk b : forall l ls, split_lf b = l :: ls -> forall p off k, off <= length b ->
  lc_loop (p + length l :: map (@length byte) ls) (p + off) k = walk b off k (p + 1).
Proof.
  induction b as [|x b IH]; intros l ls E p off k Hoff.
  - simpl in E. injection E; intros <- <-. simpl in *. assert (off = 0) by lia. subst.
    rewrite Nat.add_0_r. replace (p <? p + 1) with true by (symmetry; apply Nat.ltb_lt; lia). reflexivity.
  - simpl in E. destruct (x =? 10)%N eqn:Ex.
    + injection E; intros <- <-. destruct off as [|off].
      * simpl. rewrite !Nat.add_0_r. replace (p <? p + 1) with true by (symmetry; apply Nat.ltb_lt; lia). reflexivity.
      * cbn [walk]. rewrite Ex. cbn [lc_loop length]. rewrite Nat.add_0_r.
        replace (p + S off <? p + 1) with false by (symmetry; apply Nat.ltb_ge; lia).
        replace (p + S off - (p + 1)) with off by lia.
        destruct (split_lf b) as [|l' ls'] eqn:Eb; [exfalso; apply (split_lf_nonempty b Eb)|].
        simpl in Hoff. apply (IH _ _ eq_refl 0 off (k + 1)). lia.
    + destruct (split_lf b) as [|l' ls'] eqn:Eb; [exfalso; apply (split_lf_nonempty b Eb)|].
      injection E; intros <- <-. destruct off as [|off].
      * cbn [walk lc_loop]. rewrite Nat.add_0_r.
        replace (p <? _) with true by (symmetry; apply Nat.ltb_lt; lia). reflexivity.
      * cbn [walk]. rewrite Ex. simpl in Hoff.
        rewrite <- (IH _ _ eq_refl (p + 1) off k) by lia.
        simpl length. replace (p + 1 + length l') with (p + S (length l')) by lia.
        replace (p + 1 + off) with (p + S off) by lia. reflexivity.
Qed.

Lemma lc_drop ls : forall r k, r <= fold_right (fun l n => length l + 1 + n) 0 ls - 1 ->
  lc_loop (map (@length byte) (drop_last_empty ls)) r k = lc_loop (map (@length byte) ls) r k.
Proof.
  induction ls as [|l ls IH]; intros r k H; [reflexivity|].
  destruct ls as [|l2 ls].
  - simpl in *. destruct l as [|x l]; [|reflexivity]. simpl in *.
    assert (r = 0) by lia. subst. reflexivity.
  - cbn [drop_last_empty map lc_loop]. destruct (r <? length l + 1) eqn:E; [reflexivity|].
    apply Nat.ltb_ge in E. apply IH. cbn [fold_right] in H |- *. lia.
Qed.

Lemma split_total b : fold_right (fun l n => length l + 1 + n) 0 (split_lf b) = length b + 1.
Proof.
  induction b as [|x b IH]; [reflexivity|]. simpl. destruct (x =? 10)%N; [simpl; lia|].
  destruct (split_lf b) as [|l ls] eqn:E; [exfalso; apply (split_lf_nonempty b E)|].
  simpl in *. lia.
Qed.

(** No line of the byte string ends with a carriage return. *)
Definition no_eol_cr_bytes (b : list byte) : Prop :=
  forall a c, b = a ++ 13%N :: c -> exists x c', c = x :: c' /\ x <> 10%N.

Lemma split_lf_strip b : no_eol_cr_bytes b ->
  Forall (fun l => strip_cr l = l) (split_lf b).
Proof.
  intros H.
  (* a piece of the split ending with CR gives an occurrence of CR before LF or the end *)
  assert (G : forall b l, In l (split_lf b) -> forall l0, l = l0 ++ [13%N] ->
            exists a c, b = a ++ 13%N :: c /\ (c = [] \/ exists c', c = 10%N :: c')).
  { clear. induction b as [|x b IH]; intros l Hin l0 El.
    - simpl in Hin. destruct Hin as [<-|[]]. destruct l0; discriminate.
    - simpl in Hin. destruct (x =? 10)%N eqn:Ex.
      + destruct Hin as [<-|Hin]; [destruct l0; discriminate|].
        destruct (IH _ Hin _ El) as (a & c & -> & Hc). exists (x :: a), c. auto.
      + destruct (split_lf b) as [|l1 ls] eqn:Eb; [exfalso; apply (split_lf_nonempty b Eb)|].
        destruct Hin as [<-|Hin].
        * destruct l1 as [|y l1].
          { destruct l0 as [|z l0]; [|destruct l0; discriminate].
            injection El; intros ->. exists [], b. split; [reflexivity|].
            destruct b as [|w b]; [auto|]. right. simpl in Eb.
            destruct (w =? 10)%N eqn:Ew; [apply N.eqb_eq in Ew; subst; eauto|].
            destruct (split_lf b); discriminate. }
          destruct l0 as [|z l0]; [discriminate|].
          cbn [app] in El. injection El; intros El' ->.
          destruct (IH (y :: l1) (or_introl eq_refl) l0 El') as (a & c & -> & Hc).
          exists (z :: a), c. auto.
        * destruct (IH l (or_intror Hin) _ El) as (a & c & -> & Hc). exists (x :: a), c. auto. }
  apply Forall_forall. intros l Hin. unfold strip_cr.
  destruct (rev l) as [|x r] eqn:Er; [reflexivity|].
  destruct (x =? 13)%N eqn:Ex; [|reflexivity]. exfalso. apply N.eqb_eq in Ex. subst x.
  assert (l = rev r ++ [13%N]) as El by (rewrite <- (rev_involutive l), Er; reflexivity).
  destruct (G _ _ Hin _ El) as (a & c & Eb & Hc).
  destruct (H _ _ Eb) as (x & c' & -> & Hx).
  destruct Hc as [Hc|(c2 & Hc)]; [discriminate|]. injection Hc; intros; subst. apply Hx. reflexivity.
Qed.

Lemma drop_last_empty_incl ls l : In l (drop_last_empty ls) -> In l ls.
Proof.
  induction ls as [|a ls IH]; [easy|]. destruct ls as [|b ls].
  - simpl. destruct a; [easy|]. auto.
  - intros [->|Hin]; [left; reflexivity|]. right. apply IH. exact Hin.
Qed.

Lemma lines_no_cr b : no_eol_cr_bytes b -> lines b = drop_last_empty (split_lf b).
Proof.
  intros H. unfold lines. apply split_lf_strip in H. rewrite Forall_forall in H.
  rewrite <- map_id. apply map_ext_in. intros l Hl. apply H, drop_last_empty_incl, Hl.
Qed.

Lemma line_column_walk s : no_eol_cr_bytes (raw_data s) -> bytes_offset s <= length (raw_data s) ->
  line_column s = walk (raw_data s) (bytes_offset s) 1 1.
Proof.
  intros Hcr Hoff. unfold line_column. rewrite lines_no_cr by exact Hcr.
  rewrite lc_drop by (rewrite split_total; lia).
  destruct (split_lf (raw_data s)) as [|l ls] eqn:E; [exfalso; apply (split_lf_nonempty _ E)|].
  exact (lc_walk _ E 0 1 Hoff).
Qed.

(** Specification of a location, by characters: [pre] has been read; [cur] is the part of it on the
    current line. *)
Definition location_spec (pre : text) (line col : nat) : Prop :=
  exists before cur, pre = before ++ cur /\ ~ In 10%N cur
    /\ (before = [] \/ exists b', before = b' ++ [10%N])
    /\ line = 1 + count_occ N.eq_dec pre 10%N
    /\ col = 1 + length (enc cur).

Local Ltac Zify.zify_post_hook ::= Z.div_mod_to_equations.
Lemma walk_utf8 c b line col k : is_scalar c = true -> c <> 10%N ->
  walk (utf8 c ++ b) (length (utf8 c) + k) line col = walk b k line (col + length (utf8 c)).
Proof.
  intros Hc Hn.
  assert (Forall (fun y => (y =? 10)%N = false) (utf8 c)) as HF.
  { unfold utf8. apply is_scalar_lt in Hc.
    destruct (c <? 128)%N eqn:H1; [repeat constructor; lia|].
    destruct (c <? 2048)%N eqn:H2; [repeat constructor; lia|].
    destruct (c <? 65536)%N eqn:H3; repeat constructor; lia. }
  revert col; induction HF as [|y l Hy HF IH]; intros col.
  - simpl. rewrite Nat.add_0_r. reflexivity.
  - cbn [length app walk Nat.add]. rewrite Hy, IH. f_equal. lia.
Qed.

Lemma walk_enc pre : forall post line col, scalars pre ->
  exists l c, walk (enc pre ++ post) (length (enc pre)) line col = (l, c)
  /\ l = line + count_occ N.eq_dec pre 10%N
  /\ ((~ In 10%N pre /\ c = col + length (enc pre))
      \/ exists before cur, pre = before ++ [10%N] ++ cur /\ ~ In 10%N cur /\ c = 1 + length (enc cur)).
Proof.
  induction pre as [|x pre IH]; intros post line col Hs.
  - simpl. destruct post; eexists _, _; (split; [reflexivity|]; split; [lia|left; split; [easy|lia]]).
  - apply scalars_cons in Hs. destruct Hs as [Hx Hs].
    rewrite enc_cons, app_length, <- app_assoc.
    destruct (N.eq_dec x 10) as [->|Hne].
    + change (utf8 10%N) with [10%N]. cbn [length app walk Nat.add N.eqb Pos.eqb].
      destruct (IH post (line + 1) 1 Hs) as (l & c & E & El & Hc).
      exists l, c. split; [exact E|]. rewrite count_occ_cons_eq by reflexivity. split; [rewrite El, <- Nat.add_assoc; reflexivity|].
      right. destruct Hc as [[Hni Hc]|(bf & cur & -> & Hni & Hc)].
      * exists [], pre. auto.
      * exists (10%N :: bf), cur. auto.
    + rewrite walk_utf8 by assumption.
      destruct (IH post line (col + length (utf8 x)) Hs) as (l & c & E & El & Hc).
      exists l, c. split; [exact E|]. rewrite count_occ_cons_neq by exact Hne. split; [exact El|].
      destruct Hc as [[Hni Hc]|(bf & cur & -> & Hni & Hc)].
      * left. split; [simpl; intuition congruence|lia].
      * right. exists (x :: bf), cur. auto.
Qed.

Definition no_eol_cr (t : text) : Prop :=
  forall a c, t = a ++ 13%N :: c -> exists x c', c = x :: c' /\ x <> 10%N.

Local Ltac Zify.zify_post_hook ::= Z.div_mod_to_equations.
Lemma utf8_low c x : is_scalar c = true -> In x (utf8 c) -> (x < 128)%N -> utf8 c = [x] /\ x = c.
Proof.
  unfold utf8. destruct (c <? 128)%N eqn:H1; [simpl; intuition; subst; reflexivity|].
  intros Hs. destruct (c <? 2048)%N eqn:H2; [cbn [In]; intros; exfalso; lia|].
  destruct (c <? 65536)%N eqn:H3; cbn [In]; intros; exfalso; lia.
Qed.

Lemma no_eol_cr_enc t : scalars t -> no_eol_cr t -> no_eol_cr_bytes (enc t).
Proof.
  intros Hs H a c E.
  (* find the character containing that byte *)
  assert (G : forall t, scalars t -> forall a c, enc t = a ++ 13%N :: c ->
     exists p q, t = p ++ 13%N :: q /\ c = enc q).
  { clear. induction t as [|x t IH]; intros Hs a c E.
    - destruct a; discriminate.
    - apply scalars_cons in Hs. destruct Hs as [Hx Hs]. rewrite enc_cons in E.
      apply app_eq_app in E. destruct E as (l & [[E1 E2]|[E1 E2]]).
      + destruct l as [|y l].
        * simpl in E2. destruct (IH Hs [] c (eq_sym E2)) as (p & q & -> & ->).
          exists (x :: p), q. auto.
        * injection E2; intros -> <-.
          destruct (utf8_low x (x:=13%N) Hx) as [Hu <-].
          { rewrite E1. apply in_or_app. right. left. reflexivity. }
          { lia. }
          rewrite Hu in E1. destruct a as [|z a]; [|destruct a; discriminate].
          injection E1; intros <-. exists [], t. auto.
      + destruct (IH Hs _ _ E2) as (p & q & -> & ->). exists (x :: p), q. auto. }
  destruct (G t Hs a c E) as (p & q & -> & ->).
  destruct (H p q eq_refl) as (x & c' & -> & Hx).
  apply scalars_app in Hs. destruct Hs as [_ Hs]. apply scalars_cons in Hs. destruct Hs as [_ Hs].
  apply scalars_cons in Hs. destruct Hs as [Hsx Hs].
  destruct (utf8_head (is_scalar_lt _ Hsx)) as (y & tl & Eq & Hy & _).
  rewrite enc_cons, Eq. simpl. eexists _, _. split; [reflexivity|]. intros ->.
  destruct (utf8_low x (x:=10%N) Hsx); [rewrite Eq; left; reflexivity|lia|]. congruence.
Qed.

Lemma line_column_spec s pre post : at_pos s pre post -> no_eol_cr (pre ++ post) ->
  location_spec pre (fst (line_column s)) (snd (line_column s)).
Proof.
  intros (Hr & Ho & Hp & Hs) Hcr.
  rewrite line_column_walk.
  - rewrite Hr, Ho. destruct (walk_enc (enc post) 1 1 Hp) as (l & c & E & El & Hc).
    rewrite E. simpl. destruct Hc as [[Hni Hc]|(bf & cur & -> & Hni & Hc)].
    + exists [], pre. auto 6.
    + exists (bf ++ [10%N]), cur. rewrite <- app_assoc. simpl. eauto 8.
  - rewrite Hr, <- enc_app. apply no_eol_cr_enc; [apply scalars_app; auto|exact Hcr].
  - rewrite Hr, Ho, app_length. lia.
Qed.

(** ---------------- snippets ---------------- *)
Lemma slice_to_enc a b : scalars b -> slice_to (enc a ++ enc b) (length (enc a)) = Ret (enc a).
Proof.
  intros H. unfold slice_to. rewrite boundary_enc by exact H.
  rewrite firstn_app, firstn_all, Nat.sub_diag. simpl. rewrite app_nil_r. reflexivity.
Qed.

(** The snippet is returned exactly when the cut falls on a character boundary of the rest. *)
Lemma code_snippet_spec s pre post hint : at_pos s pre post ->
  code_snippet s hint =
    match post with
    | [] => Ret None
    | _ => if is_char_boundary (enc post) (Nat.min (length (enc post)) hint)
           then Ret (Some (firstn (Nat.min (length (enc post)) hint) (enc post))) else Panic
    end.
Proof.
  intros (Hr & Ho & Hp & Hs). unfold code_snippet. rewrite Hr, Ho, app_length.
  destruct post as [|c post].
  - simpl. rewrite Nat.add_0_r, Nat.eqb_refl. reflexivity.
  - replace (length (enc pre) =? _) with false.
    2:{ symmetry. apply Nat.eqb_neq. rewrite enc_cons, app_length, utf8_length.
        pose proof (len_utf8_pos c). lia. }
    rewrite slice_from_enc by exact Hs. cbn [bind].
    replace (length (enc pre) + length (enc (c :: post)) - length (enc pre))
      with (length (enc (c :: post))) by lia.
    unfold slice_to. destruct (is_char_boundary _ _); reflexivity.
Qed.

Definition ascii (t : text) : Prop := Forall (fun c => (c < 128)%N) t.

Lemma enc_ascii t : ascii t -> enc t = t.
Proof.
  induction 1 as [|c t Hc H IH]; [reflexivity|]. rewrite enc_cons, IH. unfold utf8.
  replace (c <? 128)%N with true by lia. reflexivity.
Qed.

Lemma boundary_ascii b i : Forall (fun c => (c < 128)%N) b -> i <= length b -> is_char_boundary b i = true.
Proof.
  intros H Hi. unfold is_char_boundary. destruct (i =? 0); [reflexivity|].
  destruct (i =? length b) eqn:E; [reflexivity|].
  destruct (nth_error b i) as [x|] eqn:En.
  - apply nth_error_In in En. rewrite Forall_forall in H. apply H in En. lia.
  - apply nth_error_None in En. lia.
Qed.

(** ---------------- file maps ---------------- *)
(** file_map_stream.rs:31-36.  Of the [FileMap] (crate syntex_pos) only [start_pos] and the
    registered line starts matter. *)
Record FileMapStream := mkFM { start_pos : N; str : StrStream }.

(** file_map_stream.rs:62-64: BytePos addition of syntex_pos goes through usize and casts to u32. *)
Definition abs_pos (s : FileMapStream) : N :=
  ((start_pos s + u32 (bytes_offset (str s))) mod 4294967296)%N.

(** file_map_stream.rs:126-135. *)
Definition fm_span (a b : FileMapStream) : N * N := (abs_pos a, abs_pos b).

(** file_map_stream.rs:49-60: positions passed to [next_line] (unbounded arithmetic; the u32
    overflow for files above 4GiB is not modelled here). *)
Fixpoint register_lines_loop (ls : list (list byte)) (byte_pos : nat) : list nat :=
  match ls with
  | [] => []
  | l :: r => byte_pos :: register_lines_loop r (byte_pos + length l + 1)
  end.
Definition register_lines (start : nat) (src : list byte) : list nat :=
  register_lines_loop (lines src) start.

(** Reference: a line starts at the beginning of a non-empty text and after each line feed that is
    not the last byte. *)
Fixpoint line_starts (at_start : bool) (b : list byte) (p : nat) : list nat :=
  match b with
  | [] => []
  | x :: r => (if at_start then [p] else []) ++ line_starts (x =? 10)%N r (S p)
  end.

Lemma register_split b : forall l ls, split_lf b = l :: ls -> forall pad st p,
  (st = true -> pad = 0) ->
  register_lines_loop (drop_last_empty ls) (p + length l + 1) = line_starts false b p
  /\ register_lines_loop (drop_last_empty (l :: ls)) p = line_starts true b p.
Proof.
  induction b as [|x b IH]; intros l ls E pad st p Hst.
  - simpl in E. injection E; intros <- <-. split; reflexivity.
  - simpl in E. destruct (x =? 10)%N eqn:Ex.
    + injection E; intros <- <-. simpl line_starts. rewrite Ex.
      destruct (split_lf b) as [|l' ls'] eqn:Eb; [exfalso; apply (split_lf_nonempty b Eb)|].
      destruct (IH _ _ eq_refl 0 true (S p) (fun _ => eq_refl)) as [_ H2].
      replace (p + length (@nil byte) + 1) with (S p) by (simpl; lia).
      split; [exact H2|].
      change (drop_last_empty ([] :: l' :: ls')) with ([] :: drop_last_empty (l' :: ls')).
      cbn [register_lines_loop length].
      replace (p + 0 + 1) with (S p) by lia. cbn [app]. f_equal. exact H2.
    + destruct (split_lf b) as [|l' ls'] eqn:Eb; [exfalso; apply (split_lf_nonempty b Eb)|].
      injection E; intros <- <-. simpl line_starts. rewrite Ex.
      destruct (IH _ _ eq_refl 0 false (S p)) as [H1 _]; [easy|].
      replace (p + length (x :: l') + 1) with (S p + length l' + 1) by (simpl; lia).
      split; [exact H1|].
      destruct ls' as [|l2 ls'].
      * simpl. f_equal. exact H1.
      * change (drop_last_empty ((x :: l') :: l2 :: ls')) with ((x :: l') :: drop_last_empty (l2 :: ls')).
        cbn [register_lines_loop app]. f_equal.
        replace (p + length (x :: l') + 1) with (S p + length l' + 1) by (simpl; lia). exact H1.
Qed.

Lemma register_lines_spec start b : no_eol_cr_bytes b ->
  register_lines start b = line_starts true b start.
Proof.
  intros H. unfold register_lines. rewrite lines_no_cr by exact H.
  destruct (split_lf b) as [|l ls] eqn:E; [exfalso; apply (split_lf_nonempty b E)|].
  destruct (register_split _ E (pad := 0) (st := true) start (fun _ => eq_refl)) as [_ H2]. exact H2.
Qed.
