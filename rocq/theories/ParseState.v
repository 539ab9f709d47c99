(** Model of runtime/src/parse_state.rs over string streams. *)
From Verif Require Import Base Utf8 Stream.
Set Implicit Arguments.

(** An expectation message ([&'static str]). *)
Notation msg := (list N) (only parsing).

Section PS.
Variable V : Type.

(** parse_state.rs:117-128. *)
Record pstate := mkPS {
  farthest_read : StrStream;
  expected : list msg;
  failed : bool;
  current : StrStream;
  data : option V
}.

(** parse_state.rs:134-142 [ParseState::new]. *)
Definition ps_new (s : StrStream) : pstate := mkPS s [] false s None.

(** parse_state.rs:144-150. *)
Definition is_failed (st : pstate) : bool := failed st.
Definition is_successful (st : pstate) : bool := negb (is_failed st).

(** parse_state.rs:153-162. *)
Definition error (st : pstate) (expect : msg) : pstate :=
  if stream_gtb (current st) (farthest_read st) then
    mkPS (current st) [expect] true (current st) (data st)
  else if stream_eqb (current st) (farthest_read st) then
    mkPS (farthest_read st) (expected st ++ [expect]) true (current st) (data st)
  else mkPS (farthest_read st) (expected st) true (current st) (data st).

(** parse_state.rs:166-174. *)
Definition success (st : pstate) (v : V) : pstate :=
  mkPS (farthest_read st) (expected st) false (current st) (Some v).

(** parse_state.rs:177-185. *)
Definition failure (st : pstate) : pstate :=
  mkPS (farthest_read st) (expected st) true (current st) None.

(** parse_state.rs:187-190. *)
Definition mark (st : pstate) : res StrStream :=
  if failed st then Panic else Ret (current st).

(** parse_state.rs:197-206. *)
Definition restore (st : pstate) (m : StrStream) : res pstate :=
  match data st with
  | Some _ => Panic
  | None => Ret (mkPS (farthest_read st) (expected st) false m None)
  end.

(** parse_state.rs:192-195. *)
Definition restore_from_failure (st : pstate) (m : StrStream) : res pstate :=
  if failed st then restore st m else Panic.

(** parse_state.rs:227-239. *)
Definition extract_data (st : pstate) : res (pstate * V) :=
  match is_successful st, data st with
  | true, Some d => Ret (mkPS (farthest_read st) (expected st) (failed st) (current st) None, d)
  | _, _ => Panic
  end.

(** parse_state.rs:249-251. *)
Definition discard_data (st : pstate) : pstate :=
  mkPS (farthest_read st) (expected st) (failed st) (current st) None.

(** parse_state.rs:241-243. *)
Definition unwrap_data (st : pstate) : res V :=
  match data st with Some d => Ret d | None => Panic end.

(** parse_state.rs:258-260 and 266-268. *)
Definition ps_next (st : pstate) : res (option N * pstate) :=
  '(o, c) <- next (current st) ;;
  Ret (o, mkPS (farthest_read st) (expected st) (failed st) c (data st)).
Definition ps_consume_prefix (st : pstate) (p : list N) : bool * pstate :=
  let (b, c) := consume_prefix (current st) p in
  (b, mkPS (farthest_read st) (expected st) (failed st) c (data st)).

(** parse_state.rs:37-51: the expectations become a [HashSet]; we keep the list, whose set of
    elements is what matters (see [expected_items]). *)
Record expectation := mkExp { exp_items : list msg; exp_at : StrStream }.

(** parse_state.rs:84-89. *)
Inductive parse_result :=
| PSuccess (v : V)
| PPartial (v : V) (e : expectation)
| PFailure (e : expectation).

(** parse_state.rs:209-225. *)
Definition into_result (st : pstate) : res parse_result :=
  let e := mkExp (expected st) (farthest_read st) in
  match data st with
  | Some d => if has_next (current st) then Ret (PPartial d e) else Ret (PSuccess d)
  | None => if failed st then Ret (PFailure e) else Panic
  end.

(** ---------------- error bookkeeping as a function of the history ---------------- *)
(** The effect of [error] on the error record alone. *)
Definition record_error (ei : StrStream * list msg) (at_ : StrStream) (m : msg) : StrStream * list msg :=
  if stream_gtb at_ (fst ei) then (at_, [m])
  else if stream_eqb at_ (fst ei) then (fst ei, snd ei ++ [m])
  else ei.

Definition err_info (st : pstate) : StrStream * list msg := (farthest_read st, expected st).

Lemma error_spec st m :
  err_info (error st m) = record_error (err_info st) (current st) m
  /\ failed (error st m) = true /\ current (error st m) = current st /\ data (error st m) = data st.
Proof.
  unfold error, err_info, record_error. simpl.
  destruct (stream_gtb _ _); [simpl; auto|]. destruct (stream_eqb _ _); simpl; auto.
Qed.

End PS.

Arguments mkPS {V}.
Arguments ps_new {V}.

(** Specification of the error record over a list of reported errors (position, message): the
    farthest offset and exactly the messages reported there, in order. *)
Definition farthest_of (start : nat) (errs : list (nat * msg)) : nat :=
  fold_left (fun f e => Nat.max f (fst e)) errs start.
Definition messages_at (p : nat) (errs : list (nat * msg)) : list msg :=
  map snd (filter (fun e => fst e =? p) errs).

Lemma farthest_of_ge errs : forall start, start <= farthest_of start errs
  /\ Forall (fun e => fst e <= farthest_of start errs) errs.
Proof.
  induction errs as [|[o m] errs IH]; intros start; simpl; [split; [lia|constructor]|].
  destruct (IH (Nat.max start o)) as [H1 H2]. unfold farthest_of in *. simpl in *. split; [lia|].
  constructor; [simpl; lia|]. exact H2.
Qed.

Definition record_all (ei : StrStream * list msg) (errs : list (StrStream * msg)) :=
  fold_left (fun ei e => record_error ei (fst e) (snd e)) errs ei.

Definition offs (errs : list (StrStream * msg)) : list (nat * msg) :=
  map (fun e => (bytes_offset (fst e), snd e)) errs.

Lemma messages_at_app p a b : messages_at p (a ++ b) = messages_at p a ++ messages_at p b.
Proof. unfold messages_at. rewrite filter_app, map_app. reflexivity. Qed.

Lemma messages_above p errs : Forall (fun e => fst e < p) errs -> messages_at p errs = [].
Proof.
  intros H. unfold messages_at. induction H as [|e l He H IH]; [reflexivity|]. simpl.
  replace (fst e =? p) with false by (symmetry; apply Nat.eqb_neq; lia). exact IH.
Qed.

Lemma record_all_spec errs start :
  let r := record_all (start, []) errs in
  bytes_offset (fst r) = farthest_of (bytes_offset start) (offs errs)
  /\ snd r = messages_at (farthest_of (bytes_offset start) (offs errs)) (offs errs).
Proof.
  simpl. induction errs as [|[at_ m] errs IH] using rev_ind; [auto|].
  unfold record_all, offs, farthest_of in *. rewrite !fold_left_app, !map_app, !fold_left_app.
  simpl. destruct (fold_left _ errs (start, [])) as [f ex] eqn:E. simpl in IH. destruct IH as [IH1 IH2].
  change (map (fun e => (bytes_offset (fst e), snd e)) errs) with (offs errs) in *.
  change (fold_left (fun (f0 : nat) (e : nat * msg) => Nat.max f0 (fst e)) (offs errs)
            (bytes_offset start)) with (farthest_of (bytes_offset start) (offs errs)) in *.
  rewrite <- IH1 in *.
  pose proof (farthest_of_ge (offs errs) (bytes_offset start)) as [_ HF]. rewrite <- IH1 in HF.
  unfold record_error, stream_gtb, stream_eqb. simpl.
  rewrite messages_at_app.
  destruct (bytes_offset f <? bytes_offset at_) eqn:Lt.
  - apply Nat.ltb_lt in Lt. simpl. rewrite Nat.max_r by lia. split; [reflexivity|].
    rewrite messages_above. 2:{ eapply Forall_impl; [|exact HF]. simpl. intros; lia. }
    unfold messages_at. simpl. rewrite Nat.eqb_refl. reflexivity.
  - apply Nat.ltb_ge in Lt. destruct (bytes_offset at_ =? bytes_offset f) eqn:Eq.
    + apply Nat.eqb_eq in Eq. simpl. rewrite Nat.max_l by lia. split; [reflexivity|].
      rewrite IH2. unfold messages_at at 3. simpl. rewrite (proj2 (Nat.eqb_eq _ _) Eq). reflexivity.
    + simpl. apply Nat.eqb_neq in Eq. rewrite Nat.max_l by lia. split; [reflexivity|].
      unfold messages_at at 2. simpl. rewrite (proj2 (Nat.eqb_neq _ _) Eq). simpl.
      rewrite app_nil_r. exact IH2.
Qed.

(** Histories: every way the generated code and user code can drive a state through the public
    API: [error], [success], [failure], [mark], [restore], [restore_from_failure], [extract_data],
    [discard_data], [next], [consume_prefix]; [OMove] is an assignment of the public field [current]. *)
Inductive op (V : Type) :=
| OError (m : msg) | OSuccess (v : V) | OFailure | OMark
| ORestore (m : StrStream) | ORestoreFailure (m : StrStream) | OExtract | ODiscard
| ONext | OPrefix (p : list N) | OMove (s : StrStream).
Arguments OError {V}. Arguments OFailure {V}. Arguments OMark {V}. Arguments ORestore {V}.
Arguments ORestoreFailure {V}. Arguments OExtract {V}. Arguments ODiscard {V}. Arguments ONext {V}. Arguments OPrefix {V}. Arguments OMove {V}.

Definition step V (st : pstate V) (o : op V) : res (pstate V) :=
  match o with
  | OError m => Ret (error st m)
  | OSuccess v => Ret (success st v)
  | OFailure => Ret (failure st)
  | OMark => _ <- mark st ;; Ret st
  | ORestore m => restore st m
  | ORestoreFailure m => restore_from_failure st m
  | OExtract => '(st', _) <- extract_data st ;; Ret st'
  | ODiscard => Ret (discard_data st)
  | ONext => '(_, st') <- ps_next st ;; Ret st'
  | OPrefix p => Ret (snd (ps_consume_prefix st p))
  | OMove s => Ret (mkPS (farthest_read st) (expected st) (failed st) s (data st))
  end.

(** Run a history, collecting the errors reported (position and message). *)
Fixpoint run V (st : pstate V) (ops : list (op V)) : res (pstate V * list (StrStream * msg)) :=
  match ops with
  | [] => Ret (st, [])
  | o :: r =>
    st1 <- step st o ;;
    '(st2, errs) <- run st1 r ;;
    Ret (st2, match o with OError m => (current st, m) :: errs | _ => errs end)
  end.

Lemma run_errors V (ops : list (op V)) : forall st st' errs, run st ops = Ret (st', errs) ->
  err_info st' = record_all (err_info st) errs.
Proof.
  induction ops as [|o ops IH]; intros st st' errs H; simpl in H.
  - injection H; intros <- <-. reflexivity.
  - destruct (step st o) as [st1|] eqn:Es; [|discriminate]. simpl in H.
    destruct (run st1 ops) as [[st2 er]|] eqn:Er; [|discriminate]. simpl in H.
    injection H; intros <- <-. rewrite (IH _ _ _ Er). clear H IH Er.
    assert (K : match o with OError m => err_info st1 = record_error (err_info st) (current st) m
                        | _ => err_info st1 = err_info st end).
    { destruct o; simpl in Es.
      - injection Es; intros <-. apply error_spec.
      - injection Es; intros <-. reflexivity.
      - injection Es; intros <-. reflexivity.
      - unfold mark in Es. destruct (failed st); simpl in Es; [discriminate|]. injection Es; intros <-. reflexivity.
      - unfold restore in Es. destruct (data st); [discriminate|]. injection Es; intros <-. reflexivity.
      - unfold restore_from_failure, restore in Es. destruct (failed st); [|discriminate].
        destruct (data st); [discriminate|]. injection Es; intros <-. reflexivity.
      - unfold extract_data in Es. destruct (is_successful st), (data st); try discriminate.
        simpl in Es. injection Es; intros <-. reflexivity.
      - injection Es; intros <-. reflexivity.
      - unfold ps_next in Es. destruct (next (current st)) as [[o c]|]; [|discriminate]. simpl in Es. injection Es; intros <-. reflexivity.
      - injection Es; intros <-. unfold ps_consume_prefix. destruct (consume_prefix (current st) p). reflexivity.
      - injection Es; intros <-. reflexivity. }
    destruct o; try (rewrite K; reflexivity).
Qed.

(** ---------------- printing ---------------- *)
(** parse_state.rs:56-68: the order of iteration of the hash set is unspecified; the function is
    modelled on an arbitrary enumeration [items] of it.  [truncate] panics if the new length is not
    a character boundary; [desc.len() - 4] cannot underflow when the set is not empty. *)
Definition quote_or (m : list byte) : list byte := [96%N] ++ m ++ [96%N; 32%N; 111%N; 114%N; 32%N].
Definition truncate (b : list byte) (n : nat) : res (list byte) :=
  if n <=? length b then slice_to b n else Ret b.
Definition expected_items (items : list (list byte)) : res (list byte) :=
  match items with
  | [] => Ret []
  | _ => let desc := flat_map quote_or items in truncate desc (length desc - 4)
  end.

(** "`a` or `b` or `c`" *)
Fixpoint or_list (items : list (list byte)) : list byte :=
  match items with
  | [] => []
  | [m] => [96%N] ++ m ++ [96%N]
  | m :: r => [96%N] ++ m ++ [96%N] ++ [32%N; 111%N; 114%N; 32%N] ++ or_list r
  end.

Lemma flat_map_or items : items <> [] -> flat_map quote_or items = or_list items ++ [32%N; 111%N; 114%N; 32%N].
Proof.
  induction items as [|m [|m2 r] IH]; intros H; [easy| |].
  - simpl. unfold quote_or. rewrite !app_nil_r. simpl. rewrite <- !app_assoc. reflexivity.
  - change (flat_map quote_or (m :: m2 :: r)) with (quote_or m ++ flat_map quote_or (m2 :: r)).
    rewrite IH by discriminate. unfold quote_or.
    change (or_list (m :: m2 :: r)) with ([96%N] ++ m ++ [96%N] ++ [32%N; 111%N; 114%N; 32%N] ++ or_list (m2 :: r)).
    rewrite <- !app_assoc. reflexivity.
Qed.

Lemma expected_items_ok items : expected_items items = Ret (or_list items).
Proof.
  destruct items as [|m r]; [reflexivity|]. unfold expected_items.
  set (it := m :: r). rewrite flat_map_or by discriminate.
  assert (L : length (or_list it ++ [32%N; 111%N; 114%N; 32%N]) - 4 = length (or_list it))
    by (rewrite app_length; simpl; lia).
  rewrite L. unfold truncate.
  replace (length (or_list it) <=? _) with true by (symmetry; apply Nat.leb_le; rewrite app_length; lia).
  unfold slice_to.
  replace (is_char_boundary _ _) with true.
  - rewrite firstn_app, firstn_all, Nat.sub_diag. simpl. rewrite app_nil_r. reflexivity.
  - symmetry. unfold is_char_boundary. destruct (_ =? 0); [reflexivity|].
    destruct (_ =? length _); [reflexivity|].
    rewrite nth_error_app2, Nat.sub_diag by lia. reflexivity.
Qed.

(** parse_state.rs:75-81: the pieces that are formatted. *)
Definition debug_expectation (e : expectation) : res ((nat * nat) * option (list byte) * list byte) :=
  let loc := line_column (exp_at e) in
  items <- expected_items (exp_items e) ;;
  snip <- code_snippet (exp_at e) 10 ;;
  Ret (loc, snip, items).
