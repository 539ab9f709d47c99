(** Property theorems about driving a parse state by hand (C49).

    [run (ps_new s) h] (ParseState.v) performs the operations [h] of the public API one after the other on
    [ParseState::new(s)]; [OMove s'] assigns the public field [current].  The specification reads the
    history only; the streams ([next], [consume_prefix]) are specified in C01-C05. *)
From Verif Require Import Base Utf8 Stream ParseState RuntimeFacts.
Set Implicit Arguments. Unset Strict Implicit.

Section Spec.
Variable V : Type.
Implicit Type h : list (op V).

(** ---------------- what a history says ---------------- *)
(** Failed: [error] or [failure] came after the last [success], [restore] or [restore_from_failure]. *)
Definition verdict h : bool :=
  fold_left (fun b o => match o with
                        | OError _ | OFailure => true
                        | OSuccess _ | ORestore _ | ORestoreFailure _ => false
                        | OMark | OExtract | ODiscard | ONext | OPrefix _ | OMove _ => b
                        end) h false.
(** The value of the last [success] if nothing took it away since. *)
Definition holding h : option V :=
  fold_left (fun d o => match o with
                        | OSuccess v => Some v
                        | OFailure | OExtract | ODiscard | ORestore _ | ORestoreFailure _ => None
                        | OError _ | OMark | ONext | OPrefix _ | OMove _ => d
                        end) h None.
(** Where the last read or restoration left. *)
Definition position (s : StrStream) h : StrStream :=
  fold_left (fun p o => match o with
                        | OMove q | ORestore q | ORestoreFailure q => q
                        | ONext => match next p with Ret (_, q) => q | Panic => p end
                        | OPrefix w => snd (consume_prefix p w)
                        | OError _ | OSuccess _ | OFailure | OMark | OExtract | ODiscard => p
                        end) h s.
(** The operations that are not allowed after [h]. *)
Inductive misuse (s : StrStream) h : op V -> Prop :=
| mu_mark : verdict h = true -> misuse s h OMark
| mu_restore m v : holding h = Some v -> misuse s h (ORestore m)
| mu_restore_failure m v : holding h = Some v -> misuse s h (ORestoreFailure m)
| mu_restore_success m : verdict h = false -> misuse s h (ORestoreFailure m)
| mu_extract_failed : verdict h = true -> misuse s h OExtract
| mu_extract_nothing : holding h = None -> misuse s h OExtract
| mu_next : next (position s h) = Panic -> misuse s h ONext.

Lemma verdict_app h o : verdict (h ++ [o]) = match o with OError _ | OFailure => true | OSuccess _ | ORestore _ | ORestoreFailure _ => false | _ => verdict h end.
Proof. unfold verdict. rewrite fold_left_app. destruct o; reflexivity. Qed.
Lemma holding_app h o : holding (h ++ [o]) = match o with OSuccess v => Some v | OError _ | OMark | ONext | OPrefix _ | OMove _ => holding h | _ => None end.
Proof. unfold holding. rewrite fold_left_app. destruct o; reflexivity. Qed.
Lemma position_app s h o : position s (h ++ [o]) = match o with OMove q | ORestore q | ORestoreFailure q => q | ONext => match next (position s h) with Ret (_, q) => q | Panic => position s h end | OPrefix w => snd (consume_prefix (position s h) w) | _ => position s h end.
Proof. unfold position. rewrite fold_left_app. destruct o; reflexivity. Qed.

(** One step from a state that is what the history says. *)
Definition follows (s : StrStream) h (st : pstate V) : Prop := failed st = verdict h /\ data st = holding h /\ current st = position s h.
Lemma step_follows s h st o : follows s h st ->
  match step st o with
  | Ret st' => follows s (h ++ [o]) st' /\ ~ misuse s h o
  | Panic => misuse s h o
  end.
Proof.
  intros (F & D & C). unfold follows.
  assert (NM : forall A : Prop, (misuse s h o -> False) -> A -> A /\ ~ misuse s h o) by (intros A Q a; split; assumption).
  destruct o as [m|v| | |m|m| | | |w|q]; cbn [step].
  - apply NM; [intros M; inversion M|]. rewrite verdict_app, holding_app, position_app. destruct (error_spec st m) as (_ & -> & -> & ->). auto.
  - apply NM; [intros M; inversion M|]. rewrite verdict_app, holding_app, position_app. auto.
  - apply NM; [intros M; inversion M|]. rewrite verdict_app, holding_app, position_app. auto.
  - unfold mark. destruct (failed st) eqn:Q; cbn [bind]; [apply mu_mark; congruence|].
    apply NM; [intros M; inversion M; congruence|]. rewrite verdict_app, holding_app, position_app. rewrite Q. auto.
  - unfold restore. destruct (data st) as [v|] eqn:Q; [apply (@mu_restore s h m v); congruence|].
    apply NM; [intros M; inversion M; congruence|]. rewrite verdict_app, holding_app, position_app. auto.
  - unfold restore_from_failure, restore. destruct (failed st) eqn:Q1; [|apply mu_restore_success; congruence]. destruct (data st) as [v|] eqn:Q; [apply (@mu_restore_failure s h m v); congruence|].
    apply NM; [intros M; inversion M; congruence|]. rewrite verdict_app, holding_app, position_app. auto.
  - unfold extract_data, is_successful, is_failed. destruct (failed st) eqn:Q1; cbn [negb bind]; [apply mu_extract_failed; congruence|]. destruct (data st) as [v|] eqn:Q; cbn [bind]; [|apply mu_extract_nothing; congruence].
    apply NM; [intros M; inversion M; congruence|]. rewrite verdict_app, holding_app, position_app. cbn. auto.
  - apply NM; [intros M; inversion M|]. rewrite verdict_app, holding_app, position_app. cbn. auto.
  - unfold ps_next. rewrite C. destruct (next (position s h)) as [[oc c]|] eqn:Q; cbn [bind]; [|apply mu_next; exact Q].
    apply NM; [intros M; inversion M; congruence|]. rewrite verdict_app, holding_app, position_app, Q. cbn. auto.
  - apply NM; [intros M; inversion M|]. rewrite verdict_app, holding_app, position_app. unfold ps_consume_prefix. rewrite C.
    destruct (consume_prefix (position s h) w). cbn. auto.
  - apply NM; [intros M; inversion M|]. rewrite verdict_app, holding_app, position_app. cbn. auto.
Qed.

Lemma run_follows s l : forall h st, follows s h st ->
  match run st l with
  | Ret (st', _) => follows s (h ++ l) st' /\ (forall k o r, l = k ++ o :: r -> ~ misuse s (h ++ k) o)
  | Panic => exists k o r, l = k ++ o :: r /\ misuse s (h ++ k) o
  end.
Proof.
  induction l as [|o l IH]; intros h st F; cbn [run].
  - rewrite app_nil_r. split; [exact F|]. intros [|x k] o r Q; discriminate Q.
  - pose proof (step_follows o F) as K. destruct (step st o) as [st1|]; cbn [bind].
    + destruct K as [F1 NM]. specialize (IH _ _ F1). destruct (run st1 l) as [[st2 er]|]; cbn [bind].
      * destruct IH as [F2 N2]. rewrite <- app_assoc in F2. split; [exact F2|]. intros [|x k] p r Q; cbn in Q; injection Q as <- Q.
        -- rewrite app_nil_r. exact NM.
        -- specialize (N2 k p r Q). rewrite <- app_assoc in N2. exact N2.
      * destruct IH as (k & p & r & -> & M). exists (o :: k), p, r. split; [reflexivity|]. rewrite <- app_assoc in M. exact M.
    + exists [], o, l. rewrite app_nil_r. auto.
Qed.

(** ---------------- C49 ---------------- *)
(** A state is exactly what its history says: failed or not, holding a value or not, and where it is. *)
Theorem C49_history : forall s h st errs, run (ps_new s) h = Ret (st, errs) ->
  is_failed st = verdict h /\ is_successful st = negb (verdict h) /\ data st = holding h /\ current st = position s h.
Proof.
  intros s h st errs H. assert (F : follows s [] (ps_new s)) by (repeat split). pose proof (run_follows h F) as K. rewrite H in K.
  destruct K as [(A & B & C) _]. cbn in A, B, C. unfold is_successful, is_failed. rewrite A. auto.
Qed.
(** A history panics exactly when it misuses the state somewhere. *)
Theorem C49_misuse : forall s h, run (ps_new s) h = Panic <-> exists k o r, h = k ++ o :: r /\ misuse s k o.
Proof.
  intros s h. assert (F : follows s [] (ps_new s)) by (repeat split). pose proof (run_follows h F) as K.
  destruct (run (ps_new s) h) as [[st er]|].
  - split; [discriminate|]. intros (k & o & r & -> & M). destruct K as [_ N]. exfalso. exact (N k o r eq_refl M).
  - split; [intros _; exact K|reflexivity].
Qed.
(** [extract_data] gives the value held. *)
Theorem C49_extracted : forall s h st errs, run (ps_new s) h = Ret (st, errs) ->
  match extract_data st with
  | Ret (st', v) => holding h = Some v /\ verdict h = false /\ data st' = None /\ is_failed st' = false /\ current st' = position s h
  | Panic => verdict h = true \/ holding h = None
  end.
Proof.
  intros s h st errs H. destruct (C49_history H) as (A & B & C & D). unfold extract_data. rewrite B. unfold is_failed in *.
  destruct (verdict h) eqn:Q; cbn [negb]; [auto|]. destruct (data st) as [d|] eqn:E; [|right; congruence]. cbn. repeat split; congruence.
Qed.

(** [unwrap_data] gives the value held, whatever the verdict. *)
Theorem C49_unwrapped : forall s h st errs, run (ps_new s) h = Ret (st, errs) ->
  match unwrap_data st with Ret v => holding h = Some v | Panic => holding h = None end.
Proof. intros s h st errs H. destruct (C49_history H) as (_ & _ & C & _). unfold unwrap_data. rewrite <- C. destruct (data st); reflexivity. Qed.
(** What [next] and [consume_prefix] answer is what the stream answers where the history left it; nothing but the position changes. *)
Theorem C49_reads : forall s h st errs, run (ps_new s) h = Ret (st, errs) ->
  match ps_next st with
  | Ret (oc, st') => exists q, next (position s h) = Ret (oc, q) /\ current st' = q /\ data st' = holding h /\ is_failed st' = verdict h /\ err_info st' = err_info st
  | Panic => next (position s h) = Panic
  end
  /\ forall w, let (b, q) := consume_prefix (position s h) w in let (b', st') := ps_consume_prefix st w in
     b' = b /\ current st' = q /\ data st' = holding h /\ is_failed st' = verdict h /\ err_info st' = err_info st.
Proof.
  intros s h st errs H. destruct (C49_history H) as (A & _ & C & D). split.
  - unfold ps_next. rewrite D. destruct (next (position s h)) as [[oc q]|]; cbn [bind]; [|reflexivity]. exists q. cbn. auto.
  - intros w. unfold ps_consume_prefix. rewrite D. destruct (consume_prefix (position s h) w) as [b q]. cbn. auto.
Qed.

(** The errors reported: where the state was, and the message. *)
Fixpoint reported (s : StrStream) h : list (StrStream * list N) :=
  match h with
  | [] => []
  | o :: r => match o with OError m => [(s, m)] | _ => [] end ++ reported (position s [o]) r
  end.
Lemma run_reported l : forall st st' errs, run st l = Ret (st', errs) -> errs = reported (current st) l.
Proof.
  induction l as [|o l IH]; intros st st' errs H; cbn [run reported] in *; [congruence|].
  destruct (step st o) as [st1|] eqn:Q; cbn [bind] in H; [|discriminate H].
  destruct (run st1 l) as [[st2 er]|] eqn:R; cbn [bind] in H; [|discriminate H]. specialize (IH _ _ _ R).
  assert (C : current st1 = position (current st) [o]).
  { clear -Q. destruct o as [m|v| | |m|m| | | |w|q]; cbn [step] in Q; unfold mark, restore_from_failure, restore, extract_data in Q.
    - injection Q as <-. apply error_spec.
    - injection Q as <-. reflexivity.
    - injection Q as <-. reflexivity.
    - destruct (failed st); cbn in Q; [discriminate Q|]. injection Q as <-. reflexivity.
    - destruct (data st); [discriminate Q|]. injection Q as <-. reflexivity.
    - destruct (failed st); [|discriminate Q]. destruct (data st); [discriminate Q|]. injection Q as <-. reflexivity.
    - destruct (is_successful st), (data st); cbn in Q; try discriminate Q. injection Q as <-. reflexivity.
    - injection Q as <-. reflexivity.
    - unfold ps_next in Q. cbn. destruct (next (current st)) as [[oc c]|]; cbn in Q; [|discriminate Q]. injection Q as <-. reflexivity.
    - injection Q as <-. cbn. unfold ps_consume_prefix. destruct (consume_prefix (current st) w). reflexivity.
    - injection Q as <-. reflexivity. }
  rewrite C in IH. injection H as <- <-. rewrite <- IH. destruct o; reflexivity.
Qed.

Lemma record_all_at errs : forall ei, fst (record_all ei errs) = fst ei \/ exists m, In (fst (record_all ei errs), m) errs.
Proof.
  induction errs as [|[p m] errs IH]; intros ei; [left; reflexivity|]. unfold record_all in *. cbn [fold_left fst snd].
  destruct (IH (record_error ei p m)) as [Q|(m' & I)]; [|right; exists m'; right; exact I]. rewrite Q. unfold record_error.
  destruct (stream_gtb p (fst ei)); [right; exists m; left; reflexivity|]. destruct (stream_eqb p (fst ei)); left; reflexivity.
Qed.
Lemma in_offs errs o m : In (o, m) (offs errs) <-> exists at_, In (at_, m) errs /\ bytes_offset at_ = o.
Proof.
  unfold offs. rewrite in_map_iff. split.
  - intros ([a x] & Q & I). cbn in Q. injection Q as <- <-. eauto.
  - intros (a & I & <-). exists (a, m). auto.
Qed.

(** What [into_result] answers: by the value held, the verdict, and what is left to read. *)
Theorem C49_result : forall s h st errs, run (ps_new s) h = Ret (st, errs) ->
  match into_result st with
  | Ret (PSuccess v) => holding h = Some v /\ has_next (position s h) = false
  | Ret (PPartial v e) => holding h = Some v /\ has_next (position s h) = true
  | Ret (PFailure _ e) => holding h = None /\ verdict h = true
  | Panic => holding h = None /\ verdict h = false
  end.
Proof.
  intros s h st errs H. destruct (C49_history H) as (A & _ & C & D). unfold into_result, is_failed in *. rewrite A, C, D.
  destruct (holding h) as [v|]; [destruct (has_next (position s h)) eqn:Q; auto|]. destruct (verdict h); auto.
Qed.
(** The expectation in a partial result or a failure: the farthest position of the errors reported, and the messages reported there. *)
Theorem C49_expectation : forall s h st errs, run (ps_new s) h = Ret (st, errs) ->
  forall e, (exists v, into_result st = Ret (PPartial v e)) \/ into_result st = Ret (PFailure _ e) ->
  (forall at_ m, In (at_, m) (reported s h) -> bytes_offset at_ <= bytes_offset (exp_at e))
  /\ (exp_at e = s \/ exists m, In (exp_at e, m) (reported s h))
  /\ (forall m, In m (exp_items e) <-> exists at_, In (at_, m) (reported s h) /\ bytes_offset at_ = bytes_offset (exp_at e)).
Proof.
  intros s h st errs H e K. pose proof (run_reported H) as R. cbn in R. pose proof (@run_errors V h _ _ _ H) as I1. change (err_info (ps_new (V := V) s)) with (s, @nil (list N)) in I1.
  assert (X : exp_items e = expected st /\ exp_at e = farthest_read st).
  { unfold into_result in K. destruct K as [(v & K)|K]; destruct (data st); try destruct (has_next (current st)); try destruct (failed st); try discriminate K; injection K; intros; subst; auto. }
  destruct X as [X1 X2]. rewrite X1, X2. subst errs. pose proof (record_all_spec (reported s h) s) as [S1 S2]. cbv zeta in S1, S2.
  pose proof (record_all_at (reported s h) (s, [])) as AT. cbn [fst] in AT. rewrite <- I1 in S1, S2, AT. cbn [fst snd err_info] in S1, S2, AT.
  destruct (farthest_of_max (bytes_offset s) (offs (reported s h))) as (MX & _ & _). rewrite <- S1 in *. split; [|split; [exact AT|]].
  - intros a m I. apply (MX (bytes_offset a, m)). apply in_offs. eauto.
  - intros m. rewrite S2. unfold messages_at. rewrite in_map_iff. split.
    + intros ([o x] & Q & I). cbn in Q. subst x. apply filter_In in I. destruct I as [I Q]. cbn in Q. apply Nat.eqb_eq in Q. subst o. apply in_offs. exact I.
    + intros (a & I & Q). exists (bytes_offset (farthest_read st), m). split; [reflexivity|]. apply filter_In. split; [apply in_offs; eauto|apply Nat.eqb_refl].
Qed.
End Spec.

(** The documentation of [ParseState::data] says that it is [None] if the state is erroneous.  Nothing enforces it:
    an error reported after a success leaves the value, and the result is a success. *)
Theorem C49_error_after_success_refuted : exists (s : StrStream) (h : list (op unit)) st errs,
  run (ps_new s) h = Ret (st, errs) /\ is_failed st = true /\ into_result st = Ret (PSuccess tt).
Proof. exists (str_stream []), [OSuccess tt; OError [97%N]]. eexists. eexists. split; [reflexivity|]. split; reflexivity. Qed.

(** A history as the generated code makes them: a choice whose first branch fails and whose second one gives a value. *)
Example C49_case : let t := [97; 98; 99]%N in let h := [OMark; OPrefix [97]%N; OError [120]%N; OFailure; ORestoreFailure (mkStr t 0); ONext; ONext; OSuccess 7] in
  exists st errs, run (ps_new (str_stream t)) h = Ret (st, errs) /\ verdict h = false /\ holding h = Some 7 /\ position (str_stream t) h = mkStr t 2
  /\ reported (str_stream t) h = [(mkStr t 1, [120]%N)] /\ misuse (str_stream t) h (ORestore (str_stream t)).
Proof.
  cbv zeta. destruct (run (ps_new (str_stream [97; 98; 99]%N)) [OMark; OPrefix [97]%N; OError [120]%N; OFailure; ORestoreFailure (mkStr [97; 98; 99]%N 0); ONext; ONext; OSuccess 7]) as [[st errs]|] eqn:E;
    [|vm_compute in E; discriminate E]. exists st, errs. split; [reflexivity|]. do 4 (split; [vm_compute; reflexivity|]). apply mu_restore with (v := 7). vm_compute. reflexivity.
Qed.

Print Assumptions C49_history.
Print Assumptions C49_misuse.
Print Assumptions C49_extracted.
Print Assumptions C49_unwrapped.
Print Assumptions C49_reads.
Print Assumptions C49_result.
Print Assumptions C49_expectation.
Print Assumptions C49_error_after_success_refuted.
