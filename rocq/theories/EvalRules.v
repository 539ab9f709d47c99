(** Big-step rules for the emitted code, derived from the evaluator. *)
From Verif Require Import Base Utf8 Stream ParseState Grammar PegSpec Target TargetFacts.
Set Implicit Arguments. Unset Strict Implicit.

Section Rules.
Variable prog : mode -> string -> option func.
Variable xf : mode -> list string -> pst -> outcome (pst * alog).
Notation eval := (eval prog xf).
Notation evals := (evals prog xf).

Lemma popped_done r b st e l : r = Done (st, b :: e, l) -> popped r = Done (st, e, l).
Proof. intros ->. reflexivity. Qed.
Lemma popped_n_done fr : forall r st e l, r = Done (st, fr ++ e, l) -> popped_n (length fr) r = Done (st, e, l).
Proof.
  induction fr as [|b fr IH]; intros r st e l H; simpl; [exact H|]. apply IH. rewrite H. reflexivity.
Qed.

Lemma ev_state cl st e : evals cl CState st e (st, e, []).
Proof. exists 1. reflexivity. Qed.
Lemma ev_success cl vars vs st e : get_vals e vars = Done vs -> evals cl (CSuccess vars) st e (success st (tup vs), e, []).
Proof. intros H. exists 1. simpl. rewrite H. reflexivity. Qed.
Lemma ev_failure cl st e : evals cl CFailure st e (failure st, e, []).
Proof. exists 1. reflexivity. Qed.

Lemma ev_let_mark cl m c st e st' b e' l : failed st = false ->
  evals cl c st ((m, SStream (current st)) :: e) (st', b :: e', l) -> evals cl (CLetMark m c) st e (st', e', l).
Proof. intros F [n H]. exists (S n). simpl. unfold mark. rewrite F. simpl. rewrite H. reflexivity. Qed.
Lemma ev_let_bool cl x v c st e st' b e' l :
  evals cl c st ((x, SBool v) :: e) (st', b :: e', l) -> evals cl (CLetBool x v c) st e (st', e', l).
Proof. intros [n H]. exists (S n). simpl. rewrite H. reflexivity. Qed.
Lemma ev_let_counter cl x c st e st' b e' l :
  evals cl c st ((x, SNat 0) :: e) (st', b :: e', l) -> evals cl (CLetCounter x c) st e (st', e', l).
Proof. intros [n H]. exists (S n). simpl. rewrite H. reflexivity. Qed.
Lemma ev_let_none cl x c st e st' b e' l :
  evals cl c st ((x, SVal VNone) :: e) (st', b :: e', l) -> evals cl (CLetNone x c) st e (st', e', l).
Proof. intros [n H]. exists (S n). simpl. rewrite H. reflexivity. Qed.
Lemma ev_let_vec cl x c st e st' b e' l :
  evals cl c st ((x, SVal (VVec [])) :: e) (st', b :: e', l) -> evals cl (CLetVec x c) st e (st', e', l).
Proof. intros [n H]. exists (S n). simpl. rewrite H. reflexivity. Qed.
Lemma ev_let_act cl x f (u bx : bool) args vs c st e st' b e' l : get_vals e args = Done vs ->
  evals cl c st ((x, SVal (let v := if u then VCtor f else VAct f vs in if bx then VBox v else v)) :: e) (st', b :: e', l) ->
  evals cl (CLetAct x f u bx args c) st e (st', e', (if u then [] else [(f, vs)]) ++ l).
Proof. intros Hv [n H]. exists (S n). simpl. rewrite Hv. simpl. unfold after. simpl. simpl in H. rewrite H. reflexivity. Qed.
Lemma ev_let_span cl x (rg : bool) lo s c st e st' b e' l : get_stream e lo = Done s -> failed st = false ->
  evals cl c st ((x, SVal (if rg then VRange (bytes_offset s) (bytes_offset (current st))
                          else VSpan (u32 (bytes_offset s)) (u32 (bytes_offset (current st))))) :: e) (st', b :: e', l) ->
  evals cl (CLetSpan x rg lo c) st e (st', e', l).
Proof.
  intros Hv F [n H]. exists (S n). simpl. rewrite Hv. unfold mark. rewrite F. simpl. rewrite H. reflexivity.
Qed.
Lemma ev_set_bool cl x v w c st e r : get_bool e x = Done w ->
  evals cl c st (update x (SBool v) e) r -> evals cl (CSetBool x v c) st e r.
Proof. intros Hv [n H]. exists (S n). simpl. rewrite Hv. exact H. Qed.
Lemma ev_set_some cl x w vars vs c st e r : get_val e x = Done w -> get_vals e vars = Done vs ->
  evals cl c st (update x (SVal (VSome (tup vs))) e) r -> evals cl (CSetSome x vars c) st e r.
Proof. intros Hv Hs [n H]. exists (S n). simpl. rewrite Hv, Hs. exact H. Qed.
Lemma ev_push cl x acc vars vs c st e r : get_val e x = Done (VVec acc) -> get_vals e vars = Done vs ->
  evals cl c st (update x (SVal (VVec (acc ++ [tup vs]))) e) r -> evals cl (CPush x vars c) st e r.
Proof. intros Hv Hs [n H]. exists (S n). simpl. rewrite Hv, Hs. exact H. Qed.

Lemma ev_next_some cl x s f st e ch st1 st' b e' l : ps_next st = Ret (Some ch, st1) ->
  evals cl s st1 ((x, SVal (VChar ch)) :: e) (st', b :: e', l) -> evals cl (CMatchNext (Some x) s f) st e (st', e', l).
Proof. intros Hn [n H]. exists (S n). simpl. rewrite Hn. simpl. rewrite H. reflexivity. Qed.
Lemma ev_next_anon cl s f st e ch st1 r : ps_next st = Ret (Some ch, st1) ->
  evals cl s st1 e r -> evals cl (CMatchNext None s f) st e r.
Proof. intros Hn [n H]. exists (S n). simpl. rewrite Hn. simpl. rewrite H. reflexivity. Qed.
Lemma ev_next_none cl x s f st e st1 r : ps_next st = Ret (None, st1) ->
  evals cl f st1 e r -> evals cl (CMatchNext x s f) st e r.
Proof. intros Hn [n H]. exists (S n). simpl. rewrite Hn. simpl. rewrite H. reflexivity. Qed.
Lemma ev_class_yes cl x k s f st e ch st1 st' b e' l : ps_next st = Ret (Some ch, st1) -> eval_cond k ch = true ->
  evals cl s st1 ((x, SVal (VChar ch)) :: e) (st', b :: e', l) -> evals cl (CMatchClass x k s f) st e (st', e', l).
Proof. intros Hn Hk [n H]. exists (S n). simpl. rewrite Hn. simpl. rewrite Hk, H. reflexivity. Qed.
Lemma ev_class_no cl x k s f st e ch st1 r : ps_next st = Ret (Some ch, st1) -> eval_cond k ch = false ->
  evals cl f st1 e r -> evals cl (CMatchClass x k s f) st e r.
Proof. intros Hn Hk [n H]. exists (S n). simpl. rewrite Hn. simpl. rewrite Hk, H. reflexivity. Qed.
Lemma ev_class_eof cl x k s f st e st1 r : ps_next st = Ret (None, st1) ->
  evals cl f st1 e r -> evals cl (CMatchClass x k s f) st e r.
Proof. intros Hn [n H]. exists (S n). simpl. rewrite Hn. simpl. rewrite H. reflexivity. Qed.
Lemma ev_prefix cl lit s f st e (b : bool) st1 r : ps_consume_prefix st (enc lit) = (b, st1) ->
  evals cl (if b then s else f) st1 e r -> evals cl (CPrefix lit s f) st e r.
Proof. intros Hn [n H]. exists (S n). simpl. rewrite Hn. destruct b; exact H. Qed.
Lemma ev_error cl m c st e r : evals cl c (error st m) e r -> evals cl (CError m c) st e r.
Proof. intros [n H]. exists (S n). exact H. Qed.
Lemma ev_restore cl m s c st st1 e r : get_stream e m = Done s -> restore st s = Ret st1 ->
  evals cl c st1 e r -> evals cl (CRestore m c) st e r.
Proof. intros Hm Hr [n H]. exists (S n). simpl. rewrite Hm. simpl. rewrite Hr. exact H. Qed.
Lemma ev_restore_ff cl m s c st st1 e r : get_stream e m = Done s -> failed st = true -> restore st s = Ret st1 ->
  evals cl c st1 e r -> evals cl (CRestoreFF m c) st e r.
Proof. intros Hm Hf Hr [n H]. exists (S n). simpl. rewrite Hm. simpl. unfold restore_from_failure. rewrite Hf, Hr. exact H. Qed.
Lemma ev_if_failed cl m s c st st1 e r : get_stream e m = Done s -> failed st = true -> restore st s = Ret st1 ->
  evals cl c st1 e r -> evals cl (CIfFailedRestore m c) st e r.
Proof.
  intros Hm Hf Hr [n H]. exists (S n). simpl. unfold is_failed. rewrite Hf, Hm. simpl.
  unfold restore_from_failure. rewrite Hf, Hr. exact H.
Qed.
Lemma ev_if_not_failed cl m c st e r : failed st = false -> evals cl c st e r -> evals cl (CIfFailedRestore m c) st e r.
Proof. intros Hf [n H]. exists (S n). simpl. unfold is_failed. rewrite Hf. exact H. Qed.
Lemma ev_assign cl b c st e st1 e1 l1 st2 e2 l2 : evals cl b st e (st1, e1, l1) -> evals cl c st1 e1 (st2, e2, l2) ->
  evals cl (CAssign b c) st e (st2, e2, l1 ++ l2).
Proof.
  intros [n H] [m K]. exists (S (Nat.max n m)). cbn [Target.eval].
  rewrite (@eval_done _ _ _ (Nat.max n m) _ _ _ _ _ H) by lia. unfold after. cbn [obind].
  rewrite (@eval_done _ _ _ (Nat.max n m) _ _ _ _ _ K) by lia. reflexivity.
Qed.
Lemma ev_if_true cl b (v : bool) c1 c2 st e r : get_bool e b = Done v -> evals cl (if v then c1 else c2) st e r ->
  evals cl (CIfTrue b c1 c2) st e r.
Proof. intros Hb [n H]. exists (S n). simpl. rewrite Hb. simpl. destruct v; exact H. Qed.
Lemma ev_if_less cl b v k c1 c2 st e r : get_nat e b = Done v -> evals cl (if v <? k then c1 else c2) st e r ->
  evals cl (CIfLess b k c1 c2) st e r.
Proof. intros Hb [n H]. exists (S n). simpl. rewrite Hb. simpl. destruct (v <? k); exact H. Qed.
Lemma ev_test cl m s c1 c2 st st1 e r : get_stream e m = Done s -> restore st s = Ret st1 ->
  evals cl (if is_successful st then c1 else c2) st1 e r -> evals cl (CTestRestore m c1 c2) st e r.
Proof. intros Hm Hr [n H]. exists (S n). simpl. rewrite Hm. simpl. rewrite Hr. simpl. destruct (is_successful st); exact H. Qed.

(** Calls: what the callee does. *)
Definition calls (m : mode) (p : callee) (st : pst) (r : pst * alog) : Prop :=
  match p with
  | Local id => exists f e, prog m id = Some f /\ evals (fclosures f) (fbody f) st [] (fst r, e, snd r)
  | Foreign q => xf m q st = Done r
  end.

Lemma ev_tail cl id st e r l : calls Rec (Local id) st (r, l) -> evals cl (CTail id) st e (r, e, l).
Proof.
  intros (f & e1 & P & [n H]). exists (S n). cbn [Target.eval]. rewrite P. cbn [of_opt obind].
  cbn [fst snd] in H. rewrite H. reflexivity.
Qed.
Lemma ev_call_rec cl p s f st e st1 l1 st2 e2 l2 : calls Rec p st (st1, l1) ->
  evals cl (if is_successful st1 then s else f) (if is_successful st1 then discard_data st1 else st1) e (st2, e2, l2) ->
  evals cl (CCallRec p s f) st e (st2, e2, l1 ++ l2).
Proof.
  intros C [n H]. destruct p as [id|q].
  - destruct C as (fn & e1 & P & [m K]). cbn [fst snd] in K. exists (S (Nat.max n m)). cbn [Target.eval].
    rewrite P. cbn [of_opt obind]. rewrite (@eval_done _ _ _ (Nat.max n m) _ _ _ _ _ K) by lia. cbn [obind].
    unfold after. cbn [obind]. destruct (is_successful st1);
      rewrite (@eval_done _ _ _ (Nat.max n m) _ _ _ _ _ H) by lia; reflexivity.
  - simpl in C. exists (S n). cbn [Target.eval]. rewrite C. cbn [obind]. unfold after. cbn [obind].
    destruct (is_successful st1); rewrite H; reflexivity.
Qed.
Lemma ev_call_par_ok cl p vars s f st e st1 l1 st2 v vs st3 e3 l3 : calls Par p st (st1, l1) ->
  extract_data st1 = Ret (st2, v) -> untup (length vars) v = Done vs -> length vs = length vars ->
  forall fr, length fr = length vars ->
  evals cl s st2 (combine vars (map SVal vs) ++ e) (st3, fr ++ e3, l3) ->
  evals cl (CCallPar p vars s f) st e (st3, e3, l1 ++ l3).
Proof.
  intros C X U L fr Lf [n H].
  assert (S1 : is_successful st1 = true).
  { unfold extract_data in X. destruct (is_successful st1); [reflexivity|discriminate]. }
  assert (Q : forall k, eval k cl s st2 (combine vars (map SVal vs) ++ e) = Done (st3, fr ++ e3, l3) ->
     popped_n (length vars) (eval k cl s st2 (combine vars (map SVal vs) ++ e)) = Done (st3, e3, l3)).
  { intros k K. rewrite <- Lf. apply popped_n_done. exact K. }
  destruct p as [id|q].
  - destruct C as (fn & e1 & P & [m K]). cbn [fst snd] in K. exists (S (Nat.max n m)). cbn [Target.eval].
    rewrite P. cbn [of_opt obind]. rewrite (@eval_done _ _ _ (Nat.max n m) _ _ _ _ _ K) by lia. cbn [obind].
    unfold after. cbn [obind]. rewrite S1, X. cbn [of_res obind]. rewrite U. cbn [obind].
    rewrite Q; [reflexivity|]. apply (@eval_done _ _ n); [exact H|lia].
  - simpl in C. exists (S n). cbn [Target.eval]. rewrite C. cbn [obind]. unfold after. cbn [obind].
    rewrite S1, X. cbn [of_res obind]. rewrite U. cbn [obind]. rewrite Q by exact H. reflexivity.
Qed.
Lemma ev_call_par_fail cl p vars s f st e st1 l1 st3 e3 l3 : calls Par p st (st1, l1) ->
  is_successful st1 = false -> evals cl f (failure st1) e (st3, e3, l3) ->
  evals cl (CCallPar p vars s f) st e (st3, e3, l1 ++ l3).
Proof.
  intros C S1 [n H]. destruct p as [id|q].
  - destruct C as (fn & e1 & P & [m K]). cbn [fst snd] in K. exists (S (Nat.max n m)). cbn [Target.eval].
    rewrite P. cbn [of_opt obind]. rewrite (@eval_done _ _ _ (Nat.max n m) _ _ _ _ _ K) by lia. cbn [obind].
    unfold after. cbn [obind]. rewrite S1. rewrite (@eval_done _ _ _ (Nat.max n m) _ _ _ _ _ H) by lia. reflexivity.
  - simpl in C. exists (S n). cbn [Target.eval]. rewrite C. cbn [obind]. unfold after. cbn [obind].
    rewrite S1, H. reflexivity.
Qed.

(** Loops. *)
Lemma ev_loop_stop cl body k m c st e st1 e1 l1 st2 e2 l2 : evals cl body st e (st1, e1, l1) ->
  is_successful st1 = false -> evals cl c st1 e1 (st2, e2, l2) ->
  evals cl (CLoop body k m c) st e (st2, e2, l1 ++ l2).
Proof.
  intros [n H] F [j K]. exists (S (Nat.max n j)). cbn [Target.eval].
  rewrite (@eval_done _ _ _ (Nat.max n j) _ _ _ _ _ H) by lia. unfold after. cbn [obind]. rewrite F.
  rewrite (@eval_done _ _ _ (Nat.max n j) _ _ _ _ _ K) by lia. reflexivity.
Qed.
Lemma ev_loop_more cl body k m c st e st1 e1 l1 e2 old st2 e3 l2 : evals cl body st e (st1, e1, l1) ->
  failed st1 = false ->
  match k with Some x => exists v, get_nat e1 x = Done v /\ e2 = update x (SNat (v + 1)) e1 | None => e2 = e1 end ->
  get_stream e2 m = Done old ->
  evals cl (CLoop body k m c) st1 (update m (SStream (current st1)) e2) (st2, e3, l2) ->
  evals cl (CLoop body k m c) st e (st2, e3, l1 ++ l2).
Proof.
  intros [n H] F Hk Hm [j K]. exists (S (Nat.max n j)).
  remember (CLoop body k m c) as loop eqn:El. rewrite El at 1. cbn [Target.eval].
  rewrite (@eval_done _ _ _ (Nat.max n j) _ _ _ _ _ H) by lia. unfold after. cbn [obind].
  unfold is_successful, is_failed. rewrite F. cbn [negb].
  assert (E : match k with Some x => k0 <~ get_nat e1 x ;; Done (update x (SNat (k0 + 1)) e1) | None => Done e1 end = Done e2).
  { destruct k as [x|]; [|rewrite Hk; reflexivity]. destruct Hk as (v & -> & ->). reflexivity. }
  rewrite E. cbn [obind]. unfold mark. rewrite F. cbn [of_res obind]. rewrite Hm. cbn [obind].
  rewrite <- El. rewrite (@eval_done _ _ _ (Nat.max n j) _ _ _ _ _ K) by lia. reflexivity.
Qed.
End Rules.
