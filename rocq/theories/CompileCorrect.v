(** Correctness of the generated code against the specification of PegSpec.v. *)
From Coq Require Import FinFun.
From Verif Require Import Base Utf8 Stream ParseState Grammar PegSpec Target Compile TargetFacts ScopeFacts CompileShape EvalRules.
Set Implicit Arguments. Unset Strict Implicit.

(** ---------------- positions ---------------- *)
Section Correct.
Variable G : grammar.
Variable X : extern.
Variable xf : mode -> list string -> pst -> outcome (pst * alog).
Variable T : text.

(** The byte offset and the stream of the position where [s] is left to read. *)
Definition off (s : text) : nat := length (enc T) - length (enc s).
Definition strm (s : text) : StrStream := mkStr (enc T) (off s).
Definition suffix (s : text) : Prop := exists pre, T = pre ++ s.

Definition errs (evs : list event) : list (StrStream * list N) :=
  flat_map (fun e => match e with EvErr p m => [(strm p, m)] | EvAct _ _ => [] end) evs.
Definition acts (evs : list event) : alog :=
  flat_map (fun e => match e with EvErr _ _ => [] | EvAct f a => [(f, a)] end) evs.
Definition recd (ei : StrStream * list (list N)) (evs : list event) := record_all ei (errs evs).

(** A running state at [s], and a failed one. *)
Definition run_at (s : text) (ei : StrStream * list (list N)) : pst := mkPS (fst ei) (snd ei) false (strm s) None.
Definition fail_at (cur : StrStream) (ei : StrStream * list (list N)) : pst := mkPS (fst ei) (snd ei) true cur None.

Lemma errs_app a b : errs (a ++ b) = errs a ++ errs b.
Proof. apply flat_map_app. Qed.
Lemma acts_app a b : acts (a ++ b) = acts a ++ acts b.
Proof. apply flat_map_app. Qed.
Lemma recd_app ei a b : recd ei (a ++ b) = recd (recd ei a) b.
Proof. unfold recd, record_all. rewrite errs_app, fold_left_app. reflexivity. Qed.
Lemma recd_nil ei : recd ei [] = ei.
Proof. reflexivity. Qed.
Lemma recd_err ei s m : recd ei [EvErr s m] = record_error ei (strm s) m.
Proof. reflexivity. Qed.

(** What is assumed of external rules: they behave as [X] says, stay in the text, and build one
    value in parsing mode. *)
Definition ext_ok : Prop := forall m p s r evs, suffix s -> X m p s r evs ->
  match r with
  | Some (s1, vs) => (exists pre, s = pre ++ s1) /\ length vs = match m with Rec => 0 | Par => 1 end
      /\ forall ei, exists d, xf m p (run_at s ei) = Done (mkPS (fst (recd ei evs)) (snd (recd ei evs)) false (strm s1) d, acts evs)
         /\ (m = Par -> d = Some (tup vs))
  | None => forall ei, exists cur d, xf m p (run_at s ei) = Done (mkPS (fst (recd ei evs)) (snd (recd ei evs)) true cur d, acts evs)
  end.

(** Literals of the grammar are Rust strings. *)
Definition lits_ok : Prop := forall i lit, expr_of G i = Some (EStr lit) -> scalars lit.

(** The generated functions a rule may call exist, and their closures are well scoped. *)
Definition funs_ok (m : mode) : Prop := forall id rl, find_rule G id = Some rl ->
  exists f, gen_rule G m rl = COk f /\ table_scoped (fclosures f) = true.
Definition prog_ok (m : mode) : Prop :=
  match m with Rec => funs_ok Rec | Par => funs_ok Rec /\ funs_ok Par /\ coherent G end.

Hypothesis HT : scalars T.
Hypothesis HX : ext_ok.
Hypothesis HL : lits_ok.

Notation evals := (evals (gen_prog G) xf).
Notation calls := (calls (gen_prog G) xf).

Lemma suffix_app p s : suffix (p ++ s) -> suffix s.
Proof. intros [q H]. exists (q ++ p). rewrite <- app_assoc. exact H. Qed.
Lemma suffix_cons c s : suffix (c :: s) -> suffix s.
Proof. apply (suffix_app (p := [c])). Qed.

Lemma at_strm s : suffix s -> exists pre, T = pre ++ s /\ at_pos (strm s) pre s.
Proof.
  intros [pre E]. exists pre. split; [exact E|].
  assert (K : scalars (pre ++ s)) by (rewrite <- E; exact HT).
  pose proof (@pos_of_at_pos _ _ K) as A. unfold pos_of in A. unfold strm, off. rewrite E.
  rewrite enc_app at 2. rewrite app_length. replace (length (enc pre) + length (enc s) - length (enc s)) with (length (enc pre)) by lia.
  exact A.
Qed.

Lemma strm_of s pre t : T = pre ++ t -> at_pos s pre t -> s = strm t.
Proof.
  intros E H. rewrite (at_pos_pos_of H). unfold pos_of, strm, off. rewrite E, enc_app, app_length. f_equal. lia.
Qed.

Lemma next_strm c s ei : suffix (c :: s) -> ps_next (run_at (c :: s) ei) = Ret (Some c, run_at s ei).
Proof.
  intros H. destruct (at_strm H) as (pre & E & A). destruct (@next_cons _ _ _ _ A) as (s1 & N & A1 & _).
  unfold ps_next. cbn [current run_at]. rewrite N. cbn [bind]. repeat f_equal. unfold run_at.
  assert (K : T = (pre ++ [c]) ++ s) by (rewrite <- app_assoc; exact E).
  rewrite (strm_of K A1). reflexivity.
Qed.
Lemma next_strm_nil ei : suffix [] -> ps_next (run_at [] ei) = Ret (None, run_at [] ei).
Proof.
  intros H. destruct (at_strm H) as (pre & E & A). unfold ps_next. cbn [current run_at].
  rewrite (@next_nil _ _ A). reflexivity.
Qed.
Lemma prefix_strm lit s ei : suffix (lit ++ s) -> ps_consume_prefix (run_at (lit ++ s) ei) (enc lit) = (true, run_at s ei).
Proof.
  intros H. destruct (at_strm H) as (pre & E & A). destruct (@consume_prefix_true _ _ _ _ A) as (s1 & N & A1 & _).
  unfold ps_consume_prefix. cbn [current run_at]. rewrite N. unfold run_at.
  assert (K : T = (pre ++ lit) ++ s) by (rewrite <- app_assoc; exact E).
  rewrite (strm_of K A1). reflexivity.
Qed.
Lemma prefix_strm_no lit s ei : suffix s -> scalars lit -> (forall rest, s <> lit ++ rest) ->
  ps_consume_prefix (run_at s ei) (enc lit) = (false, run_at s ei).
Proof.
  intros H Hl Hn. destruct (at_strm H) as (pre & E & A).
  unfold ps_consume_prefix. cbn [current run_at]. rewrite (@consume_prefix_false _ _ _ _ A Hl Hn). reflexivity.
Qed.

Lemma error_run s ei m : failure (error (run_at s ei) m) = fail_at (strm s) (recd ei [EvErr s m]).
Proof.
  rewrite recd_err. unfold error, record_error, failure, fail_at. cbn [current farthest_read run_at].
  destruct (stream_gtb _ _); [reflexivity|]. destruct (stream_eqb _ _); reflexivity.
Qed.

(** A successful match consumes a prefix. *)
Lemma ep_suffix m it s r evs : ep G X off m it s r evs -> suffix s ->
  match r with Some (s1, _) => exists pre, s = pre ++ s1 | None => True end.
Proof.
  intros H. induction H; intros Hs; try exact I; try exact (IHep Hs); try exact (IHep2 Hs);
    try (exists []; reflexivity); try (exists [c]; reflexivity).
  - eexists. reflexivity.
  - destruct r as [[s1 vs]|]; [|exact I]. destruct (HX Hs H1) as (K & _). exact K.
  - destruct (IHep1 Hs) as [p ->]. destruct (IHep2 (suffix_app Hs)) as [q ->]. exists (p ++ q). apply app_assoc.
  - destruct (IHep1 Hs) as [p ->]. destruct (IHep2 (suffix_app Hs)) as [q ->]. exists (p ++ q). apply app_assoc.
  - destruct (IHep1 Hs) as [p ->]. destruct (IHep2 (suffix_app Hs)) as [q ->]. exists (p ++ q). apply app_assoc.
Qed.
Lemma ep_suffix1 m it s s1 vs evs : ep G X off m it s (Some (s1, vs)) evs -> suffix s -> suffix s1.
Proof. intros H Hs. destruct (ep_suffix H Hs) as [p ->]. eapply suffix_app, Hs. Qed.

(** ---------------- contexts and tables ---------------- *)
Record ctx_ok (x : ctx) : Prop := {
  ok_nodup : NoDup (frees x);
  ok_frees : Forall (old x) (frees x);
  ok_muts : Forall (old x) (muts x);
  ok_marks : Forall (old x) (marks x);
  ok_keys : Forall (fun k => fst k <= closure_uid x) (closures x)
}.

Lemma new_ctx_ok : ctx_ok new_ctx.
Proof. constructor; constructor. Qed.

Lemma Forall_old_le x y l : ctx_le x y -> Forall (old x) l -> Forall (old y) l.
Proof. intros L. apply Forall_impl. intros a. apply old_le, L. Qed.
Lemma keys_le x y : ctx_le x y -> Forall (fun k => fst k <= closure_uid x) (closures x) ->
  Forall (fun k => fst k <= closure_uid y) (closures y).
Proof.
  intros L H. destruct (le_table L) as (n & E & F). rewrite E. apply Forall_app. split.
  - eapply Forall_impl; [|exact H]. simpl. pose proof (le_closure L). intros; lia.
  - eapply Forall_impl; [|exact F]. simpl. intros; lia.
Qed.
Lemma NoDup_app_l A (a b : list A) : NoDup (a ++ b) -> NoDup a.
Proof. induction a as [|c a IH]; intros H; [constructor|]. inversion H; subst. constructor; [|auto].
  intros K. apply H2. apply in_or_app. auto. Qed.
Lemma NoDup_app_r A (a b : list A) : NoDup (a ++ b) -> NoDup b.
Proof. induction a as [|c a IH]; intros H; [exact H|]. inversion H; auto. Qed.
Lemma NoDup_app_disj A (a b : list A) x : NoDup (a ++ b) -> In x a -> In x b -> False.
Proof. induction a as [|c a IH]; intros H Ha Hb; [exact Ha|]. inversion H; subst.
  destruct Ha as [->|Ha]; [|auto]. apply H2. apply in_or_app. auto. Qed.

Lemma ctx_ok_shape n x y : ctx_ok x -> shape n x y -> ctx_ok y.
Proof.
  intros O S. destruct (sh_frees S) as (xs & E & _). pose proof (ok_nodup O) as D. pose proof (ok_frees O) as F.
  rewrite E in D, F. constructor.
  - eapply NoDup_app_l, D.
  - apply Forall_app in F. eapply Forall_old_le; [apply (sh_le S)|apply F].
  - rewrite (sh_muts S). eapply Forall_old_le; [apply (sh_le S)|apply (ok_muts O)].
  - rewrite (sh_marks S). eapply Forall_old_le; [apply (sh_le S)|apply (ok_marks O)].
  - eapply keys_le; [apply (sh_le S)|apply (ok_keys O)].
Qed.

(** The table of the whole function extends the one built so far. *)
Definition in_table (y : ctx) (cl : ctable) : Prop := exists rest, cl = closures y ++ rest.
Lemma in_table_le x y cl : ctx_le x y -> in_table y cl -> in_table x cl.
Proof.
  intros L [r ->]. destruct (le_table L) as (n & E & _). exists (n ++ r). rewrite E, app_assoc. reflexivity.
Qed.

Definition bound (l : list name) (e : env) : Prop := forall n, In n l -> lookup n e <> None.
Lemma bound_app l f e : bound l e -> bound l (f ++ e).
Proof. intros H n Hn. rewrite lookup_app. destruct (lookup n f); [discriminate|auto]. Qed.
Lemma bound_cons l b e : bound l e -> bound l (b :: e).
Proof. apply (@bound_app l [b]). Qed.
Lemma bound_incl l k e : incl k l -> bound l e -> bound k e.
Proof. intros I H n Hn. apply H, I, Hn. Qed.
Lemma bound_both l k e : bound l e -> bound k e -> bound (l ++ k) e.
Proof. intros H K n Hn. apply in_app_or in Hn. destruct Hn; auto. Qed.

(** [fr] gives the values [vs] to the variables [xs]. *)
Definition binds (fr : env) (xs : list name) (vs : list value) : Prop :=
  Forall2 (fun x v => lookup x fr = Some (SVal v)) xs vs.
Lemma binds_len fr xs vs : binds fr xs vs -> length xs = length vs.
Proof. induction 1; simpl; congruence. Qed.
Lemma binds_bound fr xs vs e : binds fr xs vs -> bound xs (fr ++ e).
Proof.
  intros H n Hn. induction H as [|x v xs vs E H IH]; [contradiction|]. destruct Hn as [<-|Hn]; [|auto].
  rewrite lookup_app, E. discriminate.
Qed.
Lemma binds_get fr xs vs e : binds fr xs vs -> get_vals (fr ++ e) xs = Done vs.
Proof.
  induction 1 as [|x v xs vs E H IH]; [reflexivity|]. simpl. unfold get_val. rewrite lookup_app, E. simpl. rewrite IH. reflexivity.
Qed.
Lemma binds_app fr xs vs fr2 : binds fr xs vs -> binds (fr ++ fr2) xs vs.
Proof. induction 1 as [|x v xs vs E H IH]; constructor; [rewrite lookup_app, E; reflexivity|exact IH]. Qed.
Lemma binds_under fr xs vs fr2 : (forall x, In x xs -> ~ In x (dom fr2)) -> binds fr xs vs -> binds (fr2 ++ fr) xs vs.
Proof.
  intros D H. induction H as [|x v xs vs E H IH]; constructor.
  - rewrite lookup_app_not; [exact E|]. apply D. left. reflexivity.
  - apply IH. intros y Hy. apply D. right. exact Hy.
Qed.
Lemma binds_join fr xs vs ys ws : binds fr xs vs -> binds fr ys ws -> binds fr (xs ++ ys) (vs ++ ws).
Proof. apply Forall2_app. Qed.

(** Names a piece of code compiled from [x] may introduce. *)
Definition intro_ok (x : ctx) (xs : list name) (fr : env) : Prop :=
  forall n, In n (dom fr) -> ~ old x n \/ In n xs.

(** ---------------- what the code for an item does ---------------- *)
Definition good_env (cl : ctable) (x y : ctx) (e : env) : Prop :=
  ctx_ok x /\ in_table y cl /\ table_scoped cl = true
  /\ bound (frees y) e /\ bound (muts x) e /\ bound (marks x) e.

(** [does cl k c s x y e r evs]: code [c] with continuation [k] from position [s]. *)
Definition does (cl : ctable) (k c : code) (x y : ctx) (e : env) (s : text) (r : option (text * list value)) (evs : list event) : Prop :=
  match r with
  | Some (s1, vs) => exists fr xs, frees x = frees y ++ xs /\ intro_ok x xs fr /\ binds fr xs vs
      /\ forall ei e2 st2 l2, evals cl k (run_at s1 (recd ei evs)) (fr ++ e) (st2, fr ++ e2, l2) ->
           evals cl c (run_at s ei) e (st2, e2, acts evs ++ l2)
  | None => forall ei, exists cur, evals cl c (run_at s ei) e (fail_at cur (recd ei evs), e, acts evs)
  end.

Definition star_env (m : mode) (k : option name) (mk r : name) (n : nat) (s : text) (acc : list value) (e : env) : env :=
  match k with Some k => [(k, SNat n)] | None => [] end ++ (mk, SStream (strm s))
  :: match m with Rec => [] | Par => [(r, SVal (VVec acc))] end ++ e.

Definition P (m : mode) (it : item) (s : text) (r : option (text * list value)) (evs : list event) : Prop :=
  suffix s -> prog_ok m ->
  match it with
  | IE i => forall fuel k x c y cl e, compile G fuel m i k x = COk (c, y) -> good_env cl x y e ->
      does cl k c x y e s r evs
  | ISeq l => forall fuel k x c y cl e, compile_seq (compile G fuel m) l k x = COk (c, y) -> good_env cl x y e ->
      does cl k c x y e s r evs
  | IAlt l => forall fuel k x0 ms x bs y cl e bf mk nv,
      compile_branches (compile G fuel m) (save_scope x0) bf k l x = COk (bs, y) ->
      Forall (fun j => ncard G m j = nv) l ->
      ctx_ok x0 -> ctx_le x0 x -> marks x = marks x0 -> muts x0 = ms ++ [bf] ->
      mk <> bf -> ~ In bf (frees x0) ->
      in_table y cl -> table_scoped cl = true -> bound (frees y) e -> bound ms e -> bound (marks x0) e ->
      match bs with
      | [] => True
      | b :: rest =>
        match r with
        | Some (s1, vs) => exists fr xs v, frees x0 = frees y ++ xs /\ intro_ok x0 xs fr /\ binds fr xs vs
            /\ forall ei e2 st2 l2,
               evals cl k (run_at s1 (recd ei evs)) (fr ++ (bf, SBool v) :: (mk, SStream (strm s)) :: e)
                 (st2, fr ++ (bf, SBool v) :: (mk, SStream (strm s)) :: e2, l2) ->
               evals cl (CAssign b (choice_code bf mk rest)) (run_at s ei) ((bf, SBool true) :: (mk, SStream (strm s)) :: e)
                 (st2, (bf, SBool v) :: (mk, SStream (strm s)) :: e2, acts evs ++ l2)
        | None => forall ei, exists cur,
               evals cl (CAssign b (choice_code bf mk rest)) (run_at s ei) ((bf, SBool true) :: (mk, SStream (strm s)) :: e)
                 (fail_at cur (recd ei evs), (bf, SBool true) :: (mk, SStream (strm s)) :: e, acts evs)
        end
      end
  | IStar j => forall fuel r0 x body y cl e kc mk after,
      compile G fuel m j (match m with Rec => CState | Par => CPush r0 (frees x) CState end) x = COk (body, y) ->
      ctx_ok x -> in_table y cl -> table_scoped cl = true ->
      (m = Par -> frees y = []) -> bound (frees y) e -> 
      (forall n s acc, bound (muts x) (star_env m kc mk r0 n s acc e)) -> bound (marks x) e ->
      (m = Par -> old x r0 /\ ~ In r0 (frees x) /\ r0 <> mk /\ Some r0 <> kc) ->
      Some mk <> kc -> ~ old x mk -> (forall n, kc = Some n -> ~ old x n) ->
      match r with
      | None => False
      | Some (s1, vs) => forall ei n acc st2 e2 l2,
          (forall cur, evals cl after (fail_at cur (recd ei evs)) (star_env m kc mk r0 (n + length vs) s1 (acc ++ vs) e) (st2, e2, l2)) ->
          evals cl (CLoop body kc mk after) (run_at s ei) (star_env m kc mk r0 n s acc e) (st2, e2, acts evs ++ l2)
      end
  end.
(** ---------------- lemmas for the cases ---------------- *)
Lemma app_len_inj A (a b c d : list A) : a ++ b = c ++ d -> length b = length d -> a = c /\ b = d.
Proof.
  revert c. induction a as [|x a IH]; intros [|y c] E L; simpl in *.
  - auto.
  - exfalso. apply (f_equal (@length _)) in E. simpl in E. rewrite app_length in E. lia.
  - exfalso. apply (f_equal (@length _)) in E. simpl in E. rewrite app_length in E. lia.
  - injection E; intros E2 ->. destruct (IH _ E2 L) as [-> ->]. auto.
Qed.

Lemma eff_active m i m1 : active G m i -> eff_mode G m i = COk m1 -> m1 = m.
Proof.
  destruct m; simpl; [intros _ H; injection H; auto|]. unfold is_unit. destruct (ty_of G i) as [t|]; [|discriminate].
  intros ->. intros H. injection H; auto.
Qed.
Lemma eff_unit i : is_unit G i = true -> eff_mode G Par i = COk Rec.
Proof. unfold is_unit. simpl. destruct (ty_of G i); [|discriminate]. intros ->. reflexivity. Qed.
Lemma compile_unit fuel i k x : is_unit G i = true -> compile G fuel Par i k x = compile G fuel Rec i k x.
Proof. intros H. destruct fuel; [reflexivity|]. cbn [compile]. rewrite (eff_unit H). reflexivity. Qed.

Lemma prog_coh m : prog_ok m -> cohm G m.
Proof. destruct m; simpl; tauto. Qed.
Lemma coh_active i e : prog_ok Par -> active G Par i -> expr_of G i = Some e -> coh_expr G i e.
Proof. intros (_ & _ & H) A E. exact (H i e E A). Qed.

Lemma not_old_mark x : ~ old x (fst (next_mark x)).
Proof. simpl. lia. Qed.

(** Same behaviour seen from an earlier context. *)
Lemma intro_sub x xs ys fr : intro_ok x xs fr -> incl xs ys -> intro_ok x ys fr.
Proof. intros H I n Hn. destruct (H n Hn); auto. Qed.
Lemma intro_le x y xs fr : ctx_le x y -> intro_ok y xs fr -> intro_ok x xs fr.
Proof. intros L H n Hn. destruct (H n Hn) as [K|K]; [left; intros O; apply K; eapply old_le; eassumption|auto]. Qed.
Lemma intro_nil x xs : intro_ok x xs [].
Proof. intros n []. Qed.
Lemma intro_cons x xs n v fr : ~ old x n \/ In n xs -> intro_ok x xs fr -> intro_ok x xs ((n, v) :: fr).
Proof. intros H K m [<-|Hm]; [exact H|auto]. Qed.
Lemma intro_app x xs a b : intro_ok x xs a -> intro_ok x xs b -> intro_ok x xs (a ++ b).
Proof. intros H K n Hn. unfold dom in Hn. rewrite map_app in Hn. apply in_app_or in Hn. destruct Hn; auto. Qed.
Lemma intro_fresh x xs fr n : intro_ok x xs fr -> old x n -> ~ In n xs -> ~ In n (dom fr).
Proof. intros H O I K. destruct (H n K); contradiction. Qed.

Lemma get_val_app fr e n : ~ In n (dom fr) -> get_val (fr ++ e) n = get_val e n.
Proof. intros H. unfold get_val. rewrite lookup_app_not by exact H. reflexivity. Qed.
Lemma get_bool_app fr e n : ~ In n (dom fr) -> get_bool (fr ++ e) n = get_bool e n.
Proof. intros H. unfold get_bool. rewrite lookup_app_not by exact H. reflexivity. Qed.
Lemma get_stream_app fr e n : ~ In n (dom fr) -> get_stream (fr ++ e) n = get_stream e n.
Proof. intros H. unfold get_stream. rewrite lookup_app_not by exact H. reflexivity. Qed.
Lemma lookup_head n v e : lookup n ((n, v) :: e) = Some v.
Proof. simpl. rewrite name_eqb_refl. reflexivity. Qed.
Lemma lookup_skip n k v e : n <> k -> lookup n ((k, v) :: e) = lookup n e.
Proof. intros H. simpl. apply name_eqb_neq in H. rewrite H. reflexivity. Qed.
Lemma update_head n v w e : update n w ((n, v) :: e) = (n, w) :: e.
Proof. simpl. rewrite name_eqb_refl. reflexivity. Qed.
Lemma update_skip n k v w e : n <> k -> update n w ((k, v) :: e) = (k, v) :: update n w e.
Proof. intros H. simpl. apply name_eqb_neq in H. rewrite H. reflexivity. Qed.

Lemma untup_tup vs : untup (length vs) (tup vs) = Done vs.
Proof.
  destruct vs as [|v [|w vs]]; [reflexivity|reflexivity|]. simpl. rewrite Nat.eqb_refl. reflexivity.
Qed.

(** Loops. *)
Lemma star_env_app m kc mk r0 n s acc e : exists p, star_env m kc mk r0 n s acc e = p ++ e.
Proof.
  unfold star_env. eexists. rewrite app_comm_cons, app_assoc. reflexivity.
Qed.

Lemma star_body m fuel j r0 x body y cl e kc mk s s1 vs evs n acc ei :
  (forall e, good_env cl x y e -> does cl (match m with Rec => CState | Par => CPush r0 (frees x) CState end) body x y e s (Some (s1, vs)) evs) ->
  compile G fuel m j (match m with Rec => CState | Par => CPush r0 (frees x) CState end) x = COk (body, y) ->
  ctx_ok x -> in_table y cl -> table_scoped cl = true ->
  (m = Par -> frees y = []) -> bound (frees y) e -> bound (muts x) (star_env m kc mk r0 n s acc e) -> bound (marks x) e ->
  (m = Par -> old x r0 /\ ~ In r0 (frees x) /\ r0 <> mk /\ Some r0 <> kc) ->
  evals cl body (run_at s ei) (star_env m kc mk r0 n s acc e)
    (run_at s1 (recd ei evs), star_env m kc mk r0 n s (acc ++ [tup vs]) e, acts evs).
Proof.
  intros IH HC Ox It Sc Fy Bf Bm Bk Hr.
  destruct (star_env_app m kc mk r0 n s acc e) as [p Ep].
  destruct (IH (star_env m kc mk r0 n s acc e)) as (fr & xs & Ef & In1 & Bn & K).
  { split; [exact Ox|]. split; [exact It|]. split; [exact Sc|].
    split; [rewrite Ep; apply bound_app, Bf|]. split; [exact Bm|rewrite Ep; apply bound_app, Bk]. }
  rewrite <- (app_nil_r (acts evs)). apply K. clear K. destruct m.
  - apply ev_state.
  - rewrite (Fy eq_refl) in Ef. simpl in Ef. destruct (Hr eq_refl) as (Or & Nr & Nm & Nk).
    assert (D : ~ In r0 (dom fr)) by (eapply intro_fresh; [exact In1|exact Or|rewrite <- Ef; exact Nr]).
    assert (Lk : forall a, lookup r0 (star_env Par kc mk r0 n s a e) = Some (SVal (VVec a))).
    { intros a. unfold star_env. rewrite lookup_app. destruct kc as [kc|].
      - rewrite lookup_skip by congruence. cbn [lookup app]. rewrite (proj2 (name_eqb_neq _ _) Nm), name_eqb_refl. reflexivity.
      - cbn [lookup app]. rewrite (proj2 (name_eqb_neq _ _) Nm), name_eqb_refl. reflexivity. }
    eapply (@ev_push _ _ _ _ acc).
    + rewrite get_val_app by exact D. unfold get_val. rewrite Lk. reflexivity.
    + rewrite Ef. apply binds_get. exact Bn.
    + rewrite update_app_not by exact D.
      replace (update r0 (SVal (VVec (acc ++ [tup vs]))) (star_env Par kc mk r0 n s acc e)) with (star_env Par kc mk r0 n s (acc ++ [tup vs]) e).
      * apply ev_state.
      * unfold star_env. destruct kc as [kc|]; cbn [app].
        -- rewrite update_skip by congruence. rewrite update_skip by exact Nm. rewrite update_head. reflexivity.
        -- rewrite update_skip by exact Nm. rewrite update_head. reflexivity.
Qed.

Lemma star_tick m kc mk r0 n s s1 acc e : Some mk <> kc -> exists e2,
  match kc with Some x => exists v, get_nat (star_env m kc mk r0 n s acc e) x = Done v
       /\ e2 = update x (SNat (v + 1)) (star_env m kc mk r0 n s acc e) | None => e2 = star_env m kc mk r0 n s acc e end
  /\ get_stream e2 mk = Done (strm s) /\ update mk (SStream (strm s1)) e2 = star_env m kc mk r0 (S n) s1 acc e.
Proof.
  intros N. unfold star_env. destruct kc as [kc|]; cbn [app].
  - eexists. split; [|split].
    + exists n. unfold get_nat. rewrite lookup_head. split; reflexivity.
    + unfold get_stream. rewrite update_head, lookup_skip by congruence. rewrite lookup_head. reflexivity.
    + rewrite update_head, update_skip by congruence. rewrite update_head. replace (n + 1) with (S n) by lia. reflexivity.
  - eexists. split; [reflexivity|]. split.
    + unfold get_stream. rewrite lookup_head. reflexivity.
    + rewrite update_head. reflexivity.
Qed.
(** Calling the function of a rule. *)
Lemma good_top x cl : ctx_ok x -> frees x = [] -> in_table x cl -> True.
Proof. auto. Qed.

Lemma fun_rec id rl s r evs : find_rule G id = Some rl -> suffix s -> prog_ok Rec ->
  P Rec (IE (rexpr rl)) s r evs -> forall ei,
  match r with
  | Some (s1, vs) => vs = [] /\ calls Rec (Local id) (run_at s ei) (success (run_at s1 (recd ei evs)) VUnit, acts evs)
  | None => exists cur, calls Rec (Local id) (run_at s ei) (fail_at cur (recd ei evs), acts evs)
  end.
Proof.
  intros Fr Hs Hp IH ei. destruct (Hp id rl Fr) as (f & Gf & Sc).
  assert (Pf : gen_prog G Rec id = Some f) by (unfold gen_prog; rewrite Fr, Gf; reflexivity).
  simpl in Gf. unfold gen_recognizer in Gf. apply cbind_ok in Gf. destruct Gf as ([c y] & E & Gf).
  apply COk_inj in Gf. subst f. pose proof (compile_shape (m := Rec) I E) as Sh.
  destruct (sh_frees Sh) as (xs & F1 & F2). simpl in F1, F2. symmetry in F1. apply app_eq_nil in F1. destruct F1 as [F1 ->].
  specialize (IH Hs Hp _ _ _ _ _ (closures y) [] E).
  assert (Ge : good_env (closures y) new_ctx y []).
  { split; [apply new_ctx_ok|]. split; [exists []; rewrite app_nil_r; reflexivity|]. split; [exact Sc|].
    rewrite F1. repeat split; intros n []. }
  specialize (IH Ge). destruct r as [[s1 vs]|].
  - destruct IH as (fr & xs & Ef & In1 & Bn & K). simpl in Ef. symmetry in Ef. apply app_eq_nil in Ef. destruct Ef as [_ ->].
    inversion Bn; subst. split; [reflexivity|].
    eexists. exists []. split; [exact Pf|]. cbn [fst snd fclosures fbody].
    rewrite <- (app_nil_r (acts evs)). eapply K. apply (@ev_success _ _ _ [] []). reflexivity.
  - destruct (IH ei) as [cur K]. exists cur. eexists. exists []. split; [exact Pf|]. exact K.
Qed.

Lemma fun_par id rl s r evs : find_rule G id = Some rl -> suffix s -> prog_ok Par -> is_unit G (rexpr rl) = false ->
  P Par (IE (rexpr rl)) s r evs -> forall ei,
  match r with
  | Some (s1, vs) => length vs = card G (rexpr rl)
      /\ calls Par (Local id) (run_at s ei) (success (run_at s1 (recd ei evs)) (tup vs), acts evs)
  | None => exists cur, calls Par (Local id) (run_at s ei) (fail_at cur (recd ei evs), acts evs)
  end.
Proof.
  intros Fr Hs Hp Hu IH ei. destruct Hp as (Hp1 & Hp2 & Hp3). destruct (Hp2 id rl Fr) as (f & Gf & Sc).
  assert (Pf : gen_prog G Par id = Some f) by (unfold gen_prog; rewrite Fr, Gf; reflexivity).
  simpl in Gf. unfold gen_parser in Gf. unfold is_unit in Hu. destruct (ty_of G (rexpr rl)) as [t|] eqn:Et; [|discriminate].
  rewrite Hu in Gf. destruct (open_scope (card G (rexpr rl)) new_ctx) as [sc x1] eqn:Eo.
  apply cbind_ok in Gf. destruct Gf as ([c y] & E & Gf). apply cbind_ok in Gf. destruct Gf as (z & Ec & Gf).
  apply COk_inj in Gf. subst f. apply close_scope_ok in Ec. destruct Ec as [Fy Ez].
  assert (Ox : ctx_ok x1).
  { unfold open_scope, fresh_vars in Eo. injection Eo; intros <- _. constructor; simpl; try constructor.
    - apply FinFun.Injective_map_NoDup; [|apply seq_NoDup]. intros a b Q. congruence.
    - apply Forall_forall. intros n Hn. apply in_map_iff in Hn. destruct Hn as (q & <- & _). simpl. lia. }
  assert (Cz : closures z = closures y) by (rewrite Ez; reflexivity).
  specialize (IH Hs (conj Hp1 (conj Hp2 Hp3)) _ _ _ _ _ (closures z) [] E).
  assert (Ge : good_env (closures z) x1 y []).
  { split; [exact Ox|]. split; [exists []; rewrite app_nil_r; exact Cz|]. split; [exact Sc|].
    rewrite Fy. unfold open_scope, fresh_vars in Eo. injection Eo; intros <- _. repeat split; intros n []. }
  specialize (IH Ge). destruct r as [[s1 vs]|].
  - destruct IH as (fr & xs & Ef & In1 & Bn & K). rewrite Fy in Ef. simpl in Ef.
    split.
    + rewrite <- (binds_len Bn), <- Ef. unfold open_scope, fresh_vars in Eo. injection Eo; intros <- _.
      simpl. rewrite map_length, seq_length. reflexivity.
    + eexists. exists []. split; [exact Pf|]. cbn [fst snd fclosures fbody].
      rewrite <- (app_nil_r (acts evs)). eapply K. rewrite Ef. apply ev_success.
      rewrite app_nil_r. rewrite <- (app_nil_r fr). apply binds_get, Bn.
  - destruct (IH ei) as [cur K]. exists cur. eexists. exists []. split; [exact Pf|]. exact K.
Qed.

(** The code around a call. *)
Lemma does_call_rec cl p k x e s r evs :
  (forall ei, match r with
   | Some (s1, vs) => vs = [] /\ exists st1, calls Rec p (run_at s ei) (st1, acts evs) /\ is_successful st1 = true
        /\ discard_data st1 = run_at s1 (recd ei evs)
   | None => exists st1 cur, calls Rec p (run_at s ei) (st1, acts evs) /\ is_successful st1 = false
        /\ failure st1 = fail_at cur (recd ei evs)
   end) -> does cl k (CCallRec p k CFailure) x x e s r evs.
Proof.
  intros H. destruct r as [[s1 vs]|]; simpl.
  - exists [], []. split; [rewrite app_nil_r; reflexivity|]. split; [apply intro_nil|].
    split; [destruct (H (strm s, [])) as [-> _]; constructor|].
    intros ei e2 st2 l2 K. destruct (H ei) as (_ & st1 & C & S1 & D).
    eapply ev_call_rec; [exact C|]. rewrite S1, D. exact K.
  - intros ei. destruct (H ei) as (st1 & cur & C & S1 & D). exists cur.
    rewrite <- (app_nil_r (acts evs)). eapply ev_call_rec; [exact C|]. rewrite S1, <- D. apply ev_failure.
Qed.

Lemma combine_dom (xs : list name) (vs : list value) : length xs = length vs -> dom (combine xs (map SVal vs)) = xs.
Proof.
  revert vs. induction xs as [|x xs IH]; intros [|v vs] L; simpl in *; try discriminate; [reflexivity|].
  f_equal. apply IH. lia.
Qed.
Lemma combine_binds (xs : list name) (vs : list value) : NoDup xs -> length xs = length vs -> binds (combine xs (map SVal vs)) xs vs.
Proof.
  revert vs. induction xs as [|x xs IH]; intros [|v vs] D L; simpl in *; try discriminate; [constructor|].
  inversion D; subst. constructor; [simpl; rewrite name_eqb_refl; reflexivity|].
  apply (@binds_under _ _ _ [(x, SVal v)]).
  - intros y Hy [<-|[]]. contradiction.
  - apply IH; [assumption|lia].
Qed.

Lemma does_call_par cl p k x y xs e s r evs : ctx_ok x -> frees x = frees y ++ xs ->
  (forall ei, match r with
   | Some (s1, vs) => length vs = length xs /\ calls Par p (run_at s ei) (success (run_at s1 (recd ei evs)) (tup vs), acts evs)
   | None => exists st1 cur, calls Par p (run_at s ei) (st1, acts evs) /\ is_successful st1 = false
        /\ failure st1 = fail_at cur (recd ei evs)
   end) -> does cl k (CCallPar p xs k CFailure) x y e s r evs.
Proof.
  intros Ox Ef H. destruct r as [[s1 vs]|]; simpl.
  - assert (L : length vs = length xs) by (apply (H (strm s, []))).
    exists (combine xs (map SVal vs)), xs. split; [exact Ef|].
    split; [intros n; rewrite combine_dom by congruence; auto|]. split.
    { apply combine_binds; [|congruence]. pose proof (ok_nodup Ox) as D. rewrite Ef in D. eapply NoDup_app_r, D. }
    intros ei e2 st2 l2 K. destruct (H ei) as (_ & C).
    eapply (@ev_call_par_ok _ _ cl p xs k CFailure _ e _ _ (run_at s1 (recd ei evs)) (tup vs) vs _ _ _ C);
      [reflexivity|rewrite <- L; apply untup_tup|exact L| |exact K].
    rewrite combine_length, map_length. lia.
  - intros ei. destruct (H ei) as (st1 & cur & C & S1 & D). exists cur.
    rewrite <- (app_nil_r (acts evs)). eapply ev_call_par_fail; [exact C|exact S1|]. rewrite D.
    apply (@ev_failure _ _ cl (fail_at cur (recd ei evs))).
Qed.

(** One branch of a choice. *)
Lemma restore_ok x0 x : ctx_ok x0 -> ctx_le x0 x -> marks x = marks x0 -> ctx_ok (restore_scope (save_scope x0) x).
Proof.
  intros O L M. pose proof (ok_nodup O). pose proof (ok_frees O). pose proof (ok_muts O). pose proof (ok_marks O).
  constructor; simpl; try assumption.
  - eapply Forall_old_le; [|eassumption]. eapply ctx_le_trans; [exact L|apply restore_scope_le].
  - eapply Forall_old_le; [|eassumption]. eapply ctx_le_trans; [exact L|apply restore_scope_le].
  - rewrite M. eapply Forall_old_le; [|eassumption]. eapply ctx_le_trans; [exact L|apply restore_scope_le].
  - eapply keys_le; [exact L|]. apply (ok_keys O).
Qed.

Lemma choice_step m i l s r1 evs1 : P m (IE i) s r1 evs1 -> suffix s -> prog_ok m ->
  forall fuel k x0 ms x bs y cl e bf mk nv,
  compile_branches (compile G fuel m) (save_scope x0) bf k (i :: l) x = COk (bs, y) ->
  Forall (fun j => ncard G m j = nv) (i :: l) ->
  ctx_ok x0 -> ctx_le x0 x -> marks x = marks x0 -> muts x0 = ms ++ [bf] ->
  mk <> bf -> ~ In bf (frees x0) ->
  in_table y cl -> table_scoped cl = true -> bound (frees y) e -> bound ms e -> bound (marks x0) e ->
  exists b rest, bs = b :: rest
  /\ (match l with
      | [] => rest = []
      | _ => exists x', ctx_le x0 x' /\ marks x' = marks x0 /\
         compile_branches (compile G fuel m) (save_scope x0) bf k l x' = COk (rest, y)
      end)
  /\ match r1 with
     | Some (s1, vs) => exists fr xs, frees x0 = frees y ++ xs /\ intro_ok x0 xs fr /\ binds fr xs vs
        /\ forall ei e2 st2 l2, let v := match l with [] => true | _ => false end in
           evals cl k (run_at s1 (recd ei evs1)) (fr ++ (bf, SBool v) :: (mk, SStream (strm s)) :: e)
                 (st2, fr ++ (bf, SBool v) :: (mk, SStream (strm s)) :: e2, l2) ->
           evals cl b (run_at s ei) ((bf, SBool true) :: (mk, SStream (strm s)) :: e)
                 (st2, (bf, SBool v) :: (mk, SStream (strm s)) :: e2, acts evs1 ++ l2)
     | None => forall ei, exists cur, evals cl b (run_at s ei) ((bf, SBool true) :: (mk, SStream (strm s)) :: e)
                 (fail_at cur (recd ei evs1), (bf, SBool true) :: (mk, SStream (strm s)) :: e, acts evs1)
     end.
Proof.
  intros IH Hs Hp fuel k x0 ms x bs y cl e bf mk nv Hc HF Ox Lx Mk Ms Nm Nb It Sc Bf Bm Bk.
  pose proof (restore_ok Ox Lx Mk) as Or. pose proof (prog_coh Hp) as HC.
  assert (Ih : shape_ih G (compile G fuel m) m) by (intros ? ? ? ? ? K; eapply compile_shape; eassumption).
  assert (Tot := compile_branches_shape Ih HF Hc). destruct Tot as (_ & _ & _ & xs & Fx & Lxs). simpl in Fx.
  inversion HF as [|? ? Hi HF']; subst.
  destruct l as [|j l].
  - cbn [compile_branches] in Hc. apply cbind_ok in Hc. destruct Hc as (x1 & Ep & Hc).
    apply pop_mut_ok in Ep. destruct Ep as [_ Ep]. simpl in Ep. rewrite Ms, removelast_last in Ep.
    apply cbind_ok in Hc. destruct Hc as ([c y'] & Ec & Hc). apply COk_inj in Hc. apply pair_inj in Hc. destruct Hc as [<- ->].
    assert (O1 : ctx_ok x1).
    { rewrite Ep. pose proof (ok_muts Or) as Q. simpl in Q. rewrite Ms in Q. apply Forall_app in Q.
      destruct Or. constructor; simpl; try assumption. apply Q. }
    assert (Ge : good_env cl x1 y ((bf, SBool true) :: (mk, SStream (strm s)) :: e)).
    { split; [exact O1|]. split; [exact It|]. split; [exact Sc|]. split; [apply bound_cons, bound_cons, Bf|].
      rewrite Ep. simpl. split; [apply bound_cons, bound_cons, Bm|]. rewrite Mk. apply bound_cons, bound_cons, Bk. }
    exists c, []. split; [reflexivity|]. split; [reflexivity|].
    specialize (IH Hs Hp _ _ _ _ _ _ _ Ec Ge). destruct r1 as [[s1 vs]|]; [|exact IH].
    destruct IH as (fr & xs1 & Ef & In1 & Bn & K). exists fr, xs1. split; [rewrite Ep in Ef; exact Ef|].
    split; [|split; [exact Bn|intros ei e2 st2 l2 v Q; subst v; apply K; exact Q]].
    eapply intro_le; [|exact In1]. rewrite Ep. eapply ctx_le_trans; [exact Lx|].
    eapply ctx_le_trans; [apply restore_scope_le|apply with_muts_le].
  - remember (j :: l) as jl eqn:Ejl. cbn [compile_branches] in Hc. rewrite Ejl in Hc. rewrite <- Ejl in Hc.
    apply cbind_ok in Hc. destruct Hc as ([c x1] & Ec & Hc). apply cbind_ok in Hc. destruct Hc as ([cs y'] & Es & Hc).
    apply COk_inj in Hc. apply pair_inj in Hc. destruct Hc as [<- ->].
    pose proof (Ih _ _ _ _ _ Ec) as Sh.
    pose proof (compile_branches_shape Ih HF' Es) as (L2 & _).
    assert (L1 : ctx_le x x1) by (eapply ctx_le_trans; [apply restore_scope_le|apply (sh_le Sh)]).
    destruct (sh_frees Sh) as (xs1 & Fx1 & Lx1). simpl in Fx1.
    assert (frees x1 = frees y /\ xs1 = xs) as [Fy ->].
    { apply app_len_inj; [congruence|congruence]. }
    set (e1 := (bf, SBool true) :: (mk, SStream (strm s)) :: e).
    assert (Ge : good_env cl (restore_scope (save_scope x0) x) x1 e1).
    { split; [exact Or|]. split; [eapply in_table_le; [|exact It]; eapply ctx_le_trans; [apply with_ncomb_le|exact L2]|].
      split; [exact Sc|]. split; [rewrite Fy; apply bound_cons, bound_cons, Bf|]. split.
      - simpl. rewrite Ms. apply bound_both; [apply bound_cons, bound_cons, Bm|].
        intros n [<-|[]]. unfold e1. rewrite lookup_head. discriminate.
      - simpl. rewrite Mk. apply bound_cons, bound_cons, Bk. }
    exists c, cs. split; [reflexivity|]. split.
    { destruct jl as [|j' l']; [discriminate|]. exists (with_ncomb x1 (S (ncomb x1))). split; [|split; [|exact Es]].
      - eapply ctx_le_trans; [exact Lx|]. eapply ctx_le_trans; [exact L1|apply with_ncomb_le].
      - simpl. rewrite (sh_marks Sh). exact Mk. }
    specialize (IH Hs Hp _ _ _ _ _ _ _ Ec Ge). destruct r1 as [[s1 vs]|]; [|exact IH].
    destruct IH as (fr & xs2 & Ef & In1 & Bn & K). simpl in Ef.
    assert (xs2 = xs) as ->.
    { rewrite Fx1 in Ef. apply app_inv_head in Ef. congruence. }
    exists fr, xs. split; [exact Fx|].
    assert (In0 : intro_ok x0 xs fr).
    { eapply intro_le; [|exact In1]. eapply ctx_le_trans; [exact Lx|apply restore_scope_le]. }
    split; [exact In0|]. split; [exact Bn|].
    intros ei e2 st2 l2. destruct jl as [|j' l']; [discriminate|]. cbv zeta. intros Hk.
    eapply K. assert (D : ~ In bf (dom fr)).
    { eapply intro_fresh; [exact In0| |].
      - pose proof (ok_muts Ox) as Q. rewrite Ms in Q. apply Forall_app in Q. destruct Q as [_ Q]. inversion Q; assumption.
      - intros K2. apply Nb. rewrite Fx. apply in_or_app. auto. }
    eapply ev_set_bool.
    + rewrite get_bool_app by exact D. unfold get_bool, e1. rewrite lookup_head. reflexivity.
    + rewrite update_app_not by exact D. unfold e1. rewrite update_head. exact Hk.
Qed.

(** ---------------- the theorem ---------------- *)
Lemma eval_condition_class ch cls k : compile_condition cls = COk k -> eval_cond k ch = true <-> in_class ch cls.
Proof.
  assert (One : forall j, eval_cond (compile_interval j) ch = true <-> (fst j <= ch)%N /\ (ch <= snd j)%N).
  { intros [lo hi]. unfold compile_interval. cbn [fst snd]. destruct (lo =? hi)%N eqn:E; cbn [eval_cond].
    - apply N.eqb_eq in E. rewrite N.eqb_eq. lia.
    - rewrite andb_true_iff, !N.leb_le. tauto. }
  assert (Fold : forall l a, eval_cond (fold_left (fun acc j => KOr acc (compile_interval j)) l a) ch = true
     <-> eval_cond a ch = true \/ in_class ch l).
  { induction l as [|j l IH]; intros a; cbn [fold_left].
    - split; [auto|]. intros [H|(lo & hi & [] & _)]. exact H.
    - rewrite IH. cbn [eval_cond]. rewrite orb_true_iff, One. split.
      + intros [[H|H]|(lo & hi & Hi & H)]; [auto| |].
        * right. exists (fst j), (snd j). split; [left; destruct j; reflexivity|exact H].
        * right. exists lo, hi. split; [right; exact Hi|exact H].
      + intros [H|(lo & hi & [->|Hi] & H)]; [auto|auto|]. right. exists lo, hi. auto. }
  unfold compile_condition. destruct cls as [|j l]; [discriminate|]. intros H. apply COk_inj in H. subst k.
  rewrite Fold, One. split.
  - intros [H|(lo & hi & Hi & H)]; [exists (fst j), (snd j)|exists lo, hi].
    + split; [left; destruct j; reflexivity|exact H].
    + split; [right; exact Hi|exact H].
  - intros (lo & hi & [->|Hi] & H); [auto|]. right. exists lo, hi. auto.
Qed.

Ltac start :=
  intros Hs Hp fuel k x cd y cl en HC Ge;
  destruct fuel as [|fuel]; [discriminate HC|]; cbn [compile] in HC;
  apply cbind_ok in HC; let m1 := fresh "m1" in let Em := fresh "Em" in destruct HC as (m1 & Em & HC);
  match goal with
  | A : active G _ _ |- _ => apply (eff_active A) in Em; subst m1
  | A : is_unit G _ = false |- _ => apply (@eff_active Par _ _ A) in Em; subst m1
  | _ => apply COk_inj in Em; subst m1
  end;
  match goal with E : expr_of G _ = Some _ |- _ => rewrite E in HC end;
  pose proof Ge as (Ox & It & Sc & Bf & Bm & Bk).

(** In parsing mode the type is known to fit the expression. *)
Ltac coh := match goal with A : active G Par ?i, E : expr_of G ?i = Some _, Hp : prog_ok Par |- _ =>
     pose proof (coh_active Hp A E) as Co; cbn [coh_expr] in Co
  | A : is_unit G ?i = false, E : expr_of G ?i = Some _, Hp : prog_ok Par |- _ =>
     pose proof (@coh_active i _ Hp A E) as Co; cbn [coh_expr] in Co end.

Lemma frees_var x v y : next_free_var x = COk (v, y) -> frees x = frees y ++ [v].
Proof. intros H. apply next_free_var_ok in H. apply H. Qed.

Lemma does_mono cl k c x y e s r evs : does cl k c x y e s r evs -> does cl k c x (with_ncomb y (S (ncomb y))) e s r evs.
Proof. intros H. exact H. Qed.

Lemma good_ncomb cl x y e n : good_env cl x (with_ncomb y n) e -> good_env cl x y e.
Proof. intros H. exact H. Qed.

(** The context conditions of a loop body. *)
Definition loop_ctx (m : mode) (fuel j : nat) (r0 : name) (x : ctx) (body : code) (y : ctx) (cl : ctable) (e : env) (kc : option name) (mk : name) : Prop :=
  compile G fuel m j (match m with Rec => CState | Par => CPush r0 (frees x) CState end) x = COk (body, y)
  /\ ctx_ok x /\ in_table y cl /\ table_scoped cl = true
  /\ (m = Par -> frees y = []) /\ bound (frees y) e
  /\ (forall n s acc, bound (muts x) (star_env m kc mk r0 n s acc e)) /\ bound (marks x) e
  /\ (m = Par -> old x r0 /\ ~ In r0 (frees x) /\ r0 <> mk /\ Some r0 <> kc)
  /\ Some mk <> kc.

Lemma star_more m fuel j r0 x body y cl e kc mk after s s1 vs1 evs1 s2 vs2 evs2 :
  suffix s -> prog_ok m -> loop_ctx m fuel j r0 x body y cl e kc mk ->
  P m (IE j) s (Some (s1, vs1)) evs1 ->
  (forall ei n acc st2 e2 l2,
          (forall cur, evals cl after (fail_at cur (recd ei evs2)) (star_env m kc mk r0 (n + length vs2) s2 (acc ++ vs2) e) (st2, e2, l2)) ->
          evals cl (CLoop body kc mk after) (run_at s1 ei) (star_env m kc mk r0 n s1 acc e) (st2, e2, acts evs2 ++ l2)) ->
  forall ei n acc st2 e2 l2,
          (forall cur, evals cl after (fail_at cur (recd ei (evs1 ++ evs2))) (star_env m kc mk r0 (n + length (tup vs1 :: vs2)) s2 (acc ++ tup vs1 :: vs2) e) (st2, e2, l2)) ->
          evals cl (CLoop body kc mk after) (run_at s ei) (star_env m kc mk r0 n s acc e) (st2, e2, acts (evs1 ++ evs2) ++ l2).
Proof.
  intros Hs Hp (HC & Ox & It & Sc & Fy & Bf & Bm & Bk & Hr & Nk) IH1 IH2 ei n acc st2 e2 l2 K.
  assert (B := @star_body m fuel j r0 x body y cl e kc mk s s1 vs1 evs1 n acc ei
      (fun e Ge => IH1 Hs Hp _ _ _ _ _ _ _ HC Ge) HC Ox It Sc Fy Bf (Bm n s acc) Bk Hr).
  rewrite acts_app, <- app_assoc.
  destruct (@star_tick m kc mk r0 n s s1 (acc ++ [tup vs1]) e Nk) as (e1 & T1 & T2 & T3).
  eapply ev_loop_more; [exact B|reflexivity|exact T1|exact T2|]. cbn [current run_at]. rewrite T3.
  apply IH2. intros cur. rewrite <- recd_app. rewrite <- app_assoc. cbn [app].
  replace (S n + length vs2) with (n + length (tup vs1 :: vs2)) by (simpl; lia). apply K.
Qed.

Lemma star_stop m fuel j r0 x body y cl e kc mk after s evs :
  suffix s -> prog_ok m -> loop_ctx m fuel j r0 x body y cl e kc mk ->
  P m (IE j) s None evs ->
  forall ei n acc st2 e2 l2,
          (forall cur, evals cl after (fail_at cur (recd ei evs)) (star_env m kc mk r0 n s acc e) (st2, e2, l2)) ->
          evals cl (CLoop body kc mk after) (run_at s ei) (star_env m kc mk r0 n s acc e) (st2, e2, acts evs ++ l2).
Proof.
  intros Hs Hp (HC & Ox & It & Sc & Fy & Bf & Bm & Bk & Hr & Nk) IH1 ei n acc st2 e2 l2 K.
  destruct (star_env_app m kc mk r0 n s acc e) as [p Ep].
  assert (Ge : good_env cl x y (star_env m kc mk r0 n s acc e)).
  { split; [exact Ox|]. split; [exact It|]. split; [exact Sc|].
    split; [rewrite Ep; apply bound_app, Bf|]. split; [apply Bm|rewrite Ep; apply bound_app, Bk]. }
  destruct (IH1 Hs Hp _ _ _ _ _ _ _ HC Ge ei) as [cur B].
  eapply ev_loop_stop; [exact B|reflexivity|]. apply K.
Qed.

(** The loop contexts built by the two modes. *)
Lemma loop_ctx_rec fuel j x body y cl e kc mk : compile G fuel Rec j CState x = COk (body, y) ->
  ctx_ok x -> in_table y cl -> table_scoped cl = true -> bound (frees y) e -> bound (muts x) e -> bound (marks x) e ->
  Some mk <> kc -> loop_ctx Rec fuel j NX x body y cl e kc mk.
Proof.
  intros HC Ox It Sc Bf Bm Bk Nk. repeat (split; [first [assumption|discriminate]|]).
  split; [|split; [assumption|split; [discriminate|assumption]]].
  intros. destruct (star_env_app Rec kc mk NX n s acc e) as [pp ->]. apply bound_app, Bm.
Qed.

Lemma repeat_code_0 k f b x c y : repeat_code 0 k f b x = (c, y) -> exists mk, mk = NMark (S (mark_uid x))
  /\ c = CLetMark mk (CLoop b None mk (CRestoreFF mk k)) /\ next_mark x = (mk, y).
Proof. intros H. apply pair_inj in H. destruct H as [<- <-]. eexists. split; [reflexivity|]. split; reflexivity. Qed.
Lemma repeat_code_1 k f b x c y : repeat_code 1 k f b x = (c, y) -> exists mk kc x1, mk = NMark (S (mark_uid x))
  /\ kc = NCounter (S (counter_uid x))
  /\ c = CLetMark mk (CLetCounter kc (CLoop b (Some kc) mk (CIfLess kc 1 f (CRestoreFF mk k))))
  /\ next_mark x = (mk, x1) /\ next_counter x1 = (kc, y).
Proof. intros H. apply pair_inj in H. destruct H as [<- <-]. do 3 eexists. repeat split. Qed.
Lemma optional_code_eq k b x c y : optional_code k b x = (c, y) -> exists mk, mk = NMark (S (mark_uid x))
  /\ c = CLetMark mk (CAssign b (CIfFailedRestore mk k)) /\ next_mark x = (mk, y).
Proof. intros H. apply pair_inj in H. destruct H as [<- <-]. eexists. split; [reflexivity|]. split; reflexivity. Qed.

(** The scope opened around the body of a repetition, an option or an action. *)
Lemma scope_facts fuel x r0 x1 j sc x2 k body x4 x5 : ctx_ok x -> next_free_var x = COk (r0, x1) ->
  open_scope (card G j) x1 = (sc, x2) -> cohm G Par ->
  compile G fuel Par j k (push_mut r0 x2) = COk (body, x4) ->
  close_scope sc (with_ncomb x4 (S (ncomb x4))) = COk x5 ->
  frees x = frees x1 ++ [r0] /\ ctx_ok (push_mut r0 x2) /\ frees x4 = [] /\ old (push_mut r0 x2) r0
  /\ ~ In r0 (frees (push_mut r0 x2)) /\ muts (push_mut r0 x2) = [r0] /\ marks (push_mut r0 x2) = marks x
  /\ ctx_le x4 x5 /\ frees x5 = frees x1 /\ muts x5 = muts x
  /\ ctx_le (push_mut r0 x2) x4 /\ ctx_le x (push_mut r0 x2).
Proof.
  intros Ox Er Eo HC E Ec. pose proof (next_free_var_ok Er) as [F1 F2].
  pose proof (compile_shape HC E) as Sh. apply close_scope_ok in Ec. destruct Ec as [Fy Ex5].
  pose proof (open_scope_le (card G j) x1) as Lo. rewrite Eo in Lo. simpl in Lo.
  unfold open_scope, fresh_vars in Eo. apply pair_inj in Eo. destruct Eo as [Esc Ex2].
  assert (Or : old x r0).
  { pose proof (ok_frees Ox) as Q. rewrite Forall_forall in Q. apply Q. rewrite F1. apply in_or_app. right. left. reflexivity. }
  assert (Lx : ctx_le x (push_mut r0 x2)).
  { eapply ctx_le_trans; [|apply with_muts_le]. eapply ctx_le_trans; [|exact Lo]. rewrite F2. apply with_frees_le. }
  assert (Nr : ~ In r0 (frees (push_mut r0 x2))).
  { intros Q. rewrite <- Ex2 in Q. simpl in Q. apply in_map_iff in Q. destruct Q as (a & Q & _). subst r0.
    simpl in Or. rewrite F2 in Or. simpl in Or. lia. }
  split; [exact F1|]. split; [|split; [exact Fy|split; [eapply old_le; eassumption|split; [exact Nr|]]]].
  - constructor.
    + rewrite <- Ex2. simpl. apply FinFun.Injective_map_NoDup; [|apply seq_NoDup]. intros a b Q. congruence.
    + rewrite <- Ex2. simpl. apply Forall_forall. intros a Q. apply in_map_iff in Q. destruct Q as (q & <- & _). simpl. lia.
    + assert (M : muts (push_mut r0 x2) = [r0]) by (rewrite <- Ex2; reflexivity). rewrite M.
      constructor; [eapply old_le; eassumption|constructor].
    + assert (M : marks (push_mut r0 x2) = marks x) by (rewrite <- Ex2, F2; reflexivity). rewrite M.
      eapply Forall_old_le; [exact Lx|apply (ok_marks Ox)].
    + eapply keys_le; [exact Lx|apply (ok_keys Ox)].
  - split; [rewrite <- Ex2; reflexivity|]. split; [rewrite <- Ex2, F2; reflexivity|].
    split; [rewrite Ex5; eapply ctx_le_trans; [apply with_ncomb_le|apply restore_scope_le]|].
    split; [rewrite Ex5, <- Esc; reflexivity|].
    split; [rewrite Ex5, <- Esc, F2; reflexivity|].
    split; [apply (sh_le Sh)|exact Lx].
Qed.

Lemma scope_facts_act fuel x r0 x1 j sc x2 k body x4 x5 : ctx_ok x -> next_free_var x = COk (r0, x1) ->
  open_scope (card G j) x1 = (sc, x2) -> cohm G Par ->
  compile G fuel Par j k x2 = COk (body, x4) ->
  close_scope sc (with_ncomb x4 (S (ncomb x4))) = COk x5 ->
  frees x = frees x1 ++ [r0] /\ ctx_ok x2 /\ frees x4 = [] /\ old x2 r0
  /\ ~ In r0 (frees x2) /\ muts x2 = [] /\ marks x2 = marks x
  /\ ctx_le x4 x5 /\ frees x5 = frees x1 /\ ctx_le x x2 /\ (forall n, In n (frees x2) -> ~ old x n).
Proof.
  intros Ox Er Eo HC E Ec. pose proof (next_free_var_ok Er) as [F1 F2].
  pose proof (compile_shape HC E) as Sh. apply close_scope_ok in Ec. destruct Ec as [Fy Ex5].
  pose proof (open_scope_le (card G j) x1) as Lo. rewrite Eo in Lo. simpl in Lo.
  unfold open_scope, fresh_vars in Eo. apply pair_inj in Eo. destruct Eo as [Esc Ex2].
  assert (Or : old x r0).
  { pose proof (ok_frees Ox) as Q. rewrite Forall_forall in Q. apply Q. rewrite F1. apply in_or_app. right. left. reflexivity. }
  assert (Lx : ctx_le x x2).
  { eapply ctx_le_trans; [|exact Lo]. rewrite F2. apply with_frees_le. }
  assert (Nf : forall n, In n (frees x2) -> ~ old x n).
  { intros n Q. rewrite <- Ex2 in Q. simpl in Q. apply in_map_iff in Q. destruct Q as (a & <- & _).
    simpl. rewrite F2. simpl. lia. }
  split; [exact F1|]. split; [|split; [exact Fy|split; [eapply old_le; eassumption|split; [intros Q; exact (Nf _ Q Or)|]]]].
  - constructor.
    + rewrite <- Ex2. simpl. apply FinFun.Injective_map_NoDup; [|apply seq_NoDup]. intros a b Q. congruence.
    + rewrite <- Ex2. simpl. apply Forall_forall. intros a Q. apply in_map_iff in Q. destruct Q as (q & <- & _). simpl. lia.
    + rewrite <- Ex2. constructor.
    + assert (M : marks x2 = marks x) by (rewrite <- Ex2, F2; reflexivity). rewrite M.
      eapply Forall_old_le; [exact Lx|apply (ok_marks Ox)].
    + eapply keys_le; [exact Lx|apply (ok_keys Ox)].
  - split; [rewrite <- Ex2; reflexivity|]. split; [rewrite <- Ex2, F2; reflexivity|].
    split; [rewrite Ex5; eapply ctx_le_trans; [apply with_ncomb_le|apply restore_scope_le]|].
    split; [rewrite Ex5, <- Esc; reflexivity|]. split; [exact Lx|exact Nf].
Qed.

(** [..e] and [...e]. *)
Lemma span_case (rg : bool) fuel x lo x1 j r0 x2 k c x3 cl e s r evs : ctx_ok x -> suffix s -> prog_ok Par ->
  next_mark x = (lo, x1) -> next_free_var_skip (card G j) x1 = COk (r0, x2) ->
  compile G fuel Par j (CLetSpan r0 rg lo k) (push_mark lo x2) = COk (c, x3) ->
  good_env cl x (pop_mark (with_ncomb x3 (S (ncomb x3)))) e ->
  P Par (IE j) s r evs ->
  does cl k (CLetMark lo c) x (pop_mark (with_ncomb x3 (S (ncomb x3)))) e s
    (match r with
     | Some (s1, vs) => Some (s1, (if rg then VRange (off s) (off s1) else VSpan (u32_of (off s)) (u32_of (off s1))) :: vs)
     | None => None end) evs.
Proof.
  intros Ox Hs Hp Em Er Ec Ge IH. destruct Ge as (_ & It & Sc & Bf & Bm & Bk).
  pose proof (compile_shape (prog_coh Hp) Ec) as Sh.
  apply next_free_var_skip_ok in Er. destruct Er as (a & b & Fa & Lb & Ex2).
  assert (Nlo : ~ old x lo) by (apply pair_inj in Em; destruct Em as [<- _]; simpl; lia).
  assert (Olo : old x1 lo) by (apply pair_inj in Em; destruct Em as [<- <-]; simpl; lia).
  pose proof (sh_mark Em) as S1. destruct (sh_frees S1) as (q & Q1 & Q2). destruct q; [|discriminate].
  rewrite app_nil_r in Q1. pose proof (sh_le S1) as L1.
  assert (O1 : ctx_ok x1) by exact (ctx_ok_shape Ox S1).
  assert (Nf : ~ In lo (frees x)).
  { intros Q. apply Nlo. pose proof (ok_frees Ox) as W. rewrite Forall_forall in W. apply W, Q. }
  assert (O2 : ctx_ok (push_mark lo x2)).
  { rewrite Ex2. constructor.
    - simpl. pose proof (ok_nodup O1) as D. rewrite Fa in D. apply NoDup_remove_1 in D. exact D.
    - simpl. pose proof (ok_frees O1) as D. rewrite Fa in D. apply Forall_app in D. destruct D as [D1 D2].
      inversion D2; subst. apply Forall_app. split; assumption.
    - apply (ok_muts O1).
    - simpl. apply Forall_app. split; [apply (ok_marks O1)|]. constructor; [exact Olo|constructor].
    - apply (ok_keys O1). }
  destruct (sh_frees Sh) as (xs & E1 & E2). simpl in E1.
  assert (frees x3 = a /\ xs = b) as [F3 ->].
  { apply app_len_inj; [rewrite <- E1, Ex2; reflexivity|]. simpl in E2. congruence. }
  set (en := (lo, SStream (strm s)) :: e).
  assert (Ge' : good_env cl (push_mark lo x2) x3 en).
  { split; [exact O2|]. split; [exact It|]. split; [exact Sc|]. split; [apply bound_cons; exact Bf|].
    split.
    - rewrite Ex2. simpl. rewrite (sh_muts S1). apply bound_cons, Bm.
    - rewrite Ex2. simpl. rewrite (sh_marks S1). apply bound_both; [apply bound_cons, Bk|].
      intros n [<-|[]]. unfold en. rewrite lookup_head. discriminate. }
  specialize (IH Hs Hp _ _ _ _ _ _ _ Ec Ge'). destruct r as [[s1 vs]|].
  - destruct IH as (fr & ys & Ef & In1 & Bn & K). simpl in Ef.
    assert (ys = b) as -> by (rewrite E1 in Ef; apply app_inv_head in Ef; congruence).
    assert (L2 : ctx_le x (push_mark lo x2)).
    { eapply ctx_le_trans; [exact L1|]. rewrite Ex2. eapply ctx_le_trans; [apply with_frees_le|apply with_marks_le]. }
    set (v := if rg then _ else _).
    exists ((r0, SVal v) :: fr ++ [(lo, SStream (strm s))]), (r0 :: b).
    split; [simpl; rewrite Q1, Fa, F3; reflexivity|].
    split.
    { apply intro_cons; [right; left; reflexivity|]. apply intro_app.
      - eapply intro_le; [exact L2|]. eapply intro_sub; [exact In1|]. intros n Hn. right. exact Hn.
      - apply intro_cons; [left; exact Nlo|apply intro_nil]. }
    split.
    { constructor; [apply lookup_head|]. apply (@binds_under _ _ _ [(r0, SVal v)]).
      - intros n Hn [<-|[]]. pose proof (ok_nodup O1) as D. rewrite Fa in D. apply NoDup_remove_2 in D.
        apply D. apply in_or_app. right. exact Hn.
      - apply binds_app, Bn. }
    intros ei e2 st2 l2 Q. cbn [app] in Q. rewrite <- !app_assoc in Q. cbn [app] in Q.
    eapply ev_let_mark; [reflexivity|]. cbn [current run_at]. apply (K ei ((lo, SStream (strm s)) :: e2)).
    assert (D : ~ In lo (dom fr)).
    { eapply intro_fresh; [exact In1|rewrite Ex2; exact Olo|]. intros W. apply Nf. rewrite Q1, Fa. apply in_or_app. right. right. exact W. }
    eapply ev_let_span; [rewrite get_stream_app by exact D; unfold get_stream, en; rewrite lookup_head; reflexivity|reflexivity|].
    cbn [current run_at strm bytes_offset]. exact Q.
  - intros ei. destruct (IH ei) as [cur Q]. exists cur. eapply ev_let_mark; [reflexivity|]. exact Q.
Qed.

(** Predicates. *)
Lemma body_rec fuel j x body y cl e s r evs : suffix s -> prog_ok Rec -> P Rec (IE j) s r evs ->
  compile G fuel Rec j CState x = COk (body, y) -> good_env cl x y e -> forall ei,
  match r with
  | Some (s1, vs) => evals cl body (run_at s ei) e (run_at s1 (recd ei evs), e, acts evs)
  | None => exists cur, evals cl body (run_at s ei) e (fail_at cur (recd ei evs), e, acts evs)
  end.
Proof.
  intros Hs Hp IH E Ge ei. specialize (IH Hs Hp _ _ _ _ _ _ _ E Ge). destruct r as [[s1 vs]|]; [|apply IH].
  destruct IH as (fr & ys & Ef & In1 & Bn & K). rewrite <- (app_nil_r (acts evs)). apply K. apply ev_state.
Qed.

Lemma pred_facts fuel x mk x1 j body x2 cl e : ctx_ok x -> next_mark x = (mk, x1) ->
  compile G fuel Rec j CState x1 = COk (body, x2) -> good_env cl x (with_ncomb x2 (S (ncomb x2))) e -> forall s,
  frees x = frees x2 /\ ~ old x mk /\ good_env cl x1 x2 ((mk, SStream (strm s)) :: e).
Proof.
  intros Ox Em E Ge s. destruct Ge as (_ & It & Sc & Bf & Bm & Bk). pose proof (sh_mark Em) as S1.
  pose proof (compile_shape (m := Rec) I E) as S2. pose proof (@shape_trans 0 0 _ _ _ S1 S2) as S3.
  destruct (sh_frees S3) as (q & Q1 & Q2). destruct q; [|discriminate]. rewrite app_nil_r in Q1.
  split; [exact Q1|]. split; [apply pair_inj in Em; destruct Em as [<- _]; simpl; lia|].
  split; [exact (ctx_ok_shape Ox S1)|]. split; [exact It|]. split; [exact Sc|]. split; [apply bound_cons, Bf|].
  split; [rewrite (sh_muts S1); apply bound_cons, Bm|rewrite (sh_marks S1); apply bound_cons, Bk].
Qed.

Lemma seq_step m fuel i l k x c y cl e : prog_ok m ->
  compile_seq (compile G fuel m) (i :: l) k x = COk (c, y) -> good_env cl x y e ->
  exists k1 x1, compile_seq (compile G fuel m) l k x = COk (k1, x1) /\ compile G fuel m i k1 x1 = COk (c, with_ncomb y (pred (ncomb y)))
  /\ ctx_le x x1 /\ True
  /\ (forall fr, bound (frees x1) (fr ++ e) -> good_env cl x x1 (fr ++ e))
  /\ good_env cl x1 (with_ncomb y (pred (ncomb y))) e.
Proof.
  intros Hp HC (Ox & It & Sc & Bf & Bm & Bk). cbn [compile_seq] in HC. apply cbind_ok in HC. destruct HC as ([k1 x1] & E1 & HC).
  apply cbind_ok in HC. destruct HC as ([c' x2] & E2 & HC). apply COk_inj, pair_inj in HC. destruct HC as [-> <-].
  assert (Ih : shape_ih G (compile G fuel m) m) by (intros ? ? ? ? ? K; eapply compile_shape; [apply prog_coh, Hp|exact K]).
  pose proof (compile_seq_shape Ih E1) as S1. pose proof (Ih _ _ _ _ _ E2) as S2.
  assert (Eq : with_ncomb (with_ncomb x2 (S (ncomb x2))) (pred (ncomb (with_ncomb x2 (S (ncomb x2))))) = x2) by (destruct x2; reflexivity).
  exists k1, x1. rewrite Eq. split; [exact E1|]. split; [exact E2|]. split; [apply (sh_le S1)|]. split; [exact I|]. split.
  - intros fr B. split; [exact Ox|]. split; [eapply in_table_le; [apply (sh_le S2)|exact It]|]. split; [exact Sc|].
    split; [exact B|]. split; [apply bound_app, Bm|apply bound_app, Bk].
  - split; [exact (ctx_ok_shape Ox S1)|]. split; [exact It|]. split; [exact Sc|]. split; [exact Bf|].
    split; [rewrite (sh_muts S1); exact Bm|rewrite (sh_marks S1); exact Bk].
Qed.

Theorem correct_code m it s r evs : ep G X off m it s r evs -> P m it s r evs.
Proof.
  intros H. induction H.
  - (* unit *)
    intros Hs Hp fuel k x cd y cl en HC Ge. rewrite (compile_unit _ _ _ H) in HC.
    eapply IHep; [exact Hs|apply Hp|exact HC|exact Ge].
  - (* str ok *)
    start. apply COk_inj, pair_inj in HC. destruct HC as [<- <-].
    exists [], []. split; [rewrite app_nil_r; reflexivity|]. split; [apply intro_nil|]. split; [constructor|].
    intros ei e2 st2 l2 K. eapply ev_prefix; [apply prefix_strm, Hs|]. exact K.
  - start. apply COk_inj, pair_inj in HC. destruct HC as [<- <-].
    intros ei. exists (strm s). rewrite <- error_run.
    eapply ev_prefix; [apply prefix_strm_no; [exact Hs|eapply HL; eassumption|assumption]|]. cbn iota.
    apply ev_error, ev_failure.
  - (* any *)
    start. destruct m.
    + apply COk_inj, pair_inj in HC. destruct HC as [<- <-].
      exists [], []. split; [rewrite app_nil_r; reflexivity|]. split; [apply intro_nil|]. split; [constructor|].
      intros ei e2 st2 l2 K. eapply ev_next_anon; [apply next_strm, Hs|]. exact K.
    + apply cbind_ok in HC. destruct HC as ([v x1] & E & HC). apply COk_inj, pair_inj in HC. destruct HC as [<- <-].
      exists [(v, SVal (VChar c))], [v]. split; [apply frees_var, E|].
      split; [apply intro_cons; [right; left; reflexivity|apply intro_nil]|].
      split; [constructor; [apply lookup_head|constructor]|].
      intros ei e2 st2 l2 K. eapply ev_next_some; [apply next_strm, Hs|]. exact K.
  - start.
    assert (exists v, cd = CMatchNext v k (CError any_desc CFailure)) as [v ->].
    { destruct m; [apply COk_inj, pair_inj in HC; destruct HC as [<- <-]; eauto|].
      apply cbind_ok in HC. destruct HC as ([v x1] & E & HC). apply COk_inj, pair_inj in HC. destruct HC as [<- <-]. eauto. }
    intros ei. exists (strm []). rewrite <- error_run.
    eapply ev_next_none; [apply next_strm_nil, Hs|]. apply ev_error, ev_failure.
  - (* class *)
    start. apply cbind_ok in HC. destruct HC as ([v x1] & Ev & HC). apply cbind_ok in HC. destruct HC as (kc & Ek & HC).
    destruct (next_mark x1) as [mk x2] eqn:Em. apply COk_inj, pair_inj in HC. destruct HC as [<- <-].
    exists [(v, SVal (VChar c)); (mk, SStream (strm (c :: s)))], (match m with Rec => [] | Par => [v] end).
    assert (Nm : ~ old x mk).
    { injection Em; intros <- <-. destruct m; [apply COk_inj, pair_inj in Ev; destruct Ev as [<- <-]; simpl; lia|].
      apply next_free_var_ok in Ev. destruct Ev as [_ ->]. simpl. lia. }
    split.
    { apply pair_inj in Em; destruct Em as [_ <-]. destruct m; [apply COk_inj, pair_inj in Ev; destruct Ev as [<- <-]; simpl; rewrite app_nil_r; reflexivity|].
      apply frees_var in Ev. exact Ev. }
    split.
    { apply intro_cons; [|apply intro_cons; [left; exact Nm|apply intro_nil]].
      destruct m; [apply COk_inj, pair_inj in Ev; destruct Ev as [<- <-]; left; simpl; tauto|right; left; reflexivity]. }
    split.
    { destruct m; [constructor|]. constructor; [apply lookup_head|constructor]. }
    intros ei e2 st2 l2 K. eapply ev_let_mark; [reflexivity|].
    eapply ev_class_yes; [apply next_strm, Hs|apply (eval_condition_class c Ek); assumption|]. exact K.
  - start. apply cbind_ok in HC. destruct HC as ([v x1] & Ev & HC). apply cbind_ok in HC. destruct HC as (kc & Ek & HC).
    destruct (next_mark x1) as [mk x2] eqn:Em. apply COk_inj, pair_inj in HC. destruct HC as [<- <-].
    intros ei. exists (strm (c :: s)). rewrite <- error_run. eapply ev_let_mark; [reflexivity|].
    eapply ev_class_no; [apply next_strm, Hs| |].
    { destruct (eval_cond kc c) eqn:Q; [|reflexivity]. apply (eval_condition_class c Ek) in Q. contradiction. }
    eapply ev_restore; [unfold get_stream; rewrite lookup_head; reflexivity|reflexivity|].
    apply ev_error. apply (@ev_failure _ _ cl (error (run_at (c :: s) ei) (class_desc cls))).
  - start. apply cbind_ok in HC. destruct HC as ([v x1] & Ev & HC). apply cbind_ok in HC. destruct HC as (kc & Ek & HC).
    destruct (next_mark x1) as [mk x2] eqn:Em. apply COk_inj, pair_inj in HC. destruct HC as [<- <-].
    intros ei. exists (strm []). rewrite <- error_run. eapply ev_let_mark; [reflexivity|].
    eapply ev_class_eof; [apply next_strm_nil, Hs|].
    eapply ev_restore; [unfold get_stream; rewrite lookup_head; reflexivity|reflexivity|].
    apply ev_error. apply (@ev_failure _ _ cl (error (run_at [] ei) (class_desc cls))).
  - (* non-terminal *)
    start. destruct m.
    + apply COk_inj, pair_inj in HC. destruct HC as [<- <-]. apply does_call_rec. intros ei.
      pose proof (fun_rec H1 Hs Hp IHep ei) as K. destruct r as [[s1 vs]|].
      * destruct K as [-> K]. split; [reflexivity|]. eexists. split; [exact K|]. split; reflexivity.
      * destruct K as [cur K]. eexists. exists cur. split; [exact K|]. split; reflexivity.
    + apply cbind_ok in HC. destruct HC as ([vs x1] & Ev & HC). apply COk_inj, pair_inj in HC. destruct HC as [<- <-].
      coh. destruct Co as (rl' & Fr & Ca & Un). assert (rl' = rl) as -> by congruence.
      apply pop_vars_ok in Ev. destruct Ev as (E1 & E2 & E3).
      apply does_call_par; [exact Ox|exact E1|]. intros ei.
      pose proof (fun_par H1 Hs Hp Un IHep ei) as K. destruct r as [[s1 ws]|].
      * destruct K as [L K]. split; [congruence|exact K].
      * destruct K as [cur K]. eexists. exists cur. split; [exact K|]. split; reflexivity.
  - (* external *)
    start. pose proof (HX Hs H1) as Hx. destruct m.
    + apply COk_inj, pair_inj in HC. destruct HC as [<- <-]. apply does_call_rec. intros ei.
      destruct r as [[s1 vs]|].
      * destruct Hx as (_ & L & Hx). destruct (Hx ei) as (d & Q & _).
        split; [destruct vs; [reflexivity|discriminate]|]. eexists. split; [exact Q|]. split; reflexivity.
      * destruct (Hx ei) as (cur & d & Q). eexists. exists cur. split; [exact Q|]. split; reflexivity.
    + apply cbind_ok in HC. destruct HC as ([vs x1] & Ev & HC). apply COk_inj, pair_inj in HC. destruct HC as [<- <-].
      coh. apply pop_vars_ok in Ev. destruct Ev as (E1 & E2 & E3).
      apply does_call_par; [exact Ox|exact E1|]. intros ei. destruct r as [[s1 ws]|].
      * destruct Hx as (_ & L & Hx). destruct (Hx ei) as (d & Q & Dp). split; [congruence|].
        rewrite (Dp eq_refl) in Q. exact Q.
      * destruct (Hx ei) as (cur & d & Q). eexists. exists cur. split; [exact Q|]. split; reflexivity.
  - (* sequence *)
    start. eapply IHep; eassumption.
  - (* choice *)
    start. destruct (success_as_closure k x) as [k1 x1] eqn:Es. destruct (next_mark x1) as [mk x2] eqn:E2.
    destruct (next_branch x2) as [bf x3] eqn:E3.
    apply cbind_ok in HC. destruct HC as ([bs y'] & Eb & HC). destruct bs as [|b rest]; [discriminate|].
    apply COk_inj, pair_inj in HC. destruct HC as [<- <-].
    assert (Sh1 : shape 0 x x1) by (eapply sh_closure; exact Es).
    assert (Sh3 : shape 0 x1 x3) by (eapply (@shape_trans 0 0); [eapply sh_mark; exact E2|eapply sh_branch; exact E3]).
    assert (Sh : shape 0 x x3) by (eapply (@shape_trans 0 0); eassumption).
    assert (O3 : ctx_ok x3) by exact (ctx_ok_shape Ox Sh).
    assert (Fx : frees x3 = frees x).
    { destruct (sh_frees Sh) as (q & Q1 & Q2). destruct q; [|discriminate]. rewrite app_nil_r in Q1. auto. }
    assert (O1 : ctx_ok x1) by exact (ctx_ok_shape Ox Sh1).
    assert (Fx1 : frees x1 = frees x).
    { destruct (sh_frees Sh1) as (q & Q1 & Q2). destruct q; [|discriminate]. rewrite app_nil_r in Q1. auto. }
    assert (Obf : old x3 bf) by (injection E3; intros <- <-; simpl; lia).
    assert (Nbf : ~ old x1 bf).
    { apply pair_inj in E3; destruct E3 as [<- _]. apply pair_inj in E2; destruct E2 as [_ <-]. simpl. lia. }
    assert (Nmk : ~ old x1 mk) by (apply pair_inj in E2; destruct E2 as [<- _]; simpl; lia).
    assert (Nmb : mk <> bf).
    { apply pair_inj in E3; destruct E3 as [<- _]. apply pair_inj in E2; destruct E2 as [<- _]. discriminate. }
    assert (Fbf : ~ In bf (frees x3)).
    { rewrite Fx, <- Fx1. intros Q. apply Nbf. pose proof (ok_frees O1) as W. rewrite Forall_forall in W. apply W, Q. }
    set (x4 := push_mut bf x3) in *.
    assert (O4 : ctx_ok x4).
    { constructor; [apply (ok_nodup O3)|apply (ok_frees O3)| |apply (ok_marks O3)|apply (ok_keys O3)].
      change (Forall (old x3) (muts x3 ++ [bf])). apply Forall_app. split; [apply (ok_muts O3)|]. constructor; [exact Obf|constructor]. }
    pose proof (prog_coh Hp) as HC0.
    assert (Ih : shape_ih G (compile G fuel m) m) by (intros ? ? ? ? ? K; eapply compile_shape; eassumption).
    assert (Fn : Forall (fun j => ncard G m j = ncard G m i) l).
    { destruct m; [apply Forall_forall; reflexivity|]. coh. exact Co. }
    pose proof (compile_branches_shape Ih Fn Eb) as (L5 & _ & _ & xs & Fxs & Lxs). simpl in Fxs.
    assert (Ms : muts x4 = muts x ++ [bf]) by (simpl; rewrite (sh_muts Sh); reflexivity).
    assert (Mk : marks x4 = marks x) by (simpl; rewrite (sh_marks Sh); reflexivity).
    assert (Bk4 : bound (marks x4) en) by (rewrite Mk; exact Bk).
    pose proof (IHep Hs Hp fuel k1 x4 (muts x) x4 (b :: rest) y' cl en bf mk _ Eb Fn O4 (ctx_le_refl x4) eq_refl Ms Nmb Fbf It Sc Bf Bm Bk4) as K.
    cbv beta iota in K. destruct r as [[s1 vs]|].
    + destruct K as (fr & ys & v & F1 & F2 & F3 & K). simpl in F1.
      assert (ys = xs) as -> by (rewrite Fxs in F1; apply app_inv_head in F1; congruence).
      exists (fr ++ [(bf, SBool v); (mk, SStream (strm s))]), xs.
      split; [rewrite <- Fx; exact Fxs|].
      assert (L14 : ctx_le x1 x4) by (eapply ctx_le_trans; [apply (sh_le Sh3)|apply with_muts_le]).
      split.
      { apply intro_app.
        - eapply intro_le; [|exact F2]. eapply ctx_le_trans; [apply (sh_le Sh1)|exact L14].
        - apply intro_cons; [left; intros Q; apply Nbf; eapply old_le; [apply (sh_le Sh1)|exact Q]|].
          apply intro_cons; [left; intros Q; apply Nmk; eapply old_le; [apply (sh_le Sh1)|exact Q]|apply intro_nil]. }
      split; [apply binds_app, F3|].
      intros ei e2 st2 l2 Q. rewrite <- !app_assoc in Q. cbn [app] in Q.
      eapply ev_let_mark; [reflexivity|]. eapply ev_let_bool. cbn [current run_at]. apply K.
      (* the success continuation, called as a closure or inlined *)
      unfold success_as_closure in Es. destruct (0 <? ncomb x).
      * apply pair_inj in Es; destruct Es as [<- Ex1]. eapply call_closure; [| | |exact Q].
        -- assert (It1 : in_table x1 cl) by (eapply in_table_le; [|exact It]; eapply ctx_le_trans; [exact L14|exact L5]).
           destruct It1 as [rst ->]. rewrite <- Ex1. cbn [closures]. rewrite <- app_assoc. cbn [app].
           assert (Kx := ok_keys Ox). clear - Kx. induction (closures x) as [|a l IH]; cbn [app find].
           ++ cbn [fst]. rewrite Nat.eqb_refl. reflexivity.
           ++ inversion Kx; subst. replace (fst a =? S (closure_uid x)) with false by (symmetry; apply Nat.eqb_neq; lia).
              apply IH. assumption.
        -- assert (It1 : in_table x1 cl) by (eapply in_table_le; [|exact It]; eapply ctx_le_trans; [exact L14|exact L5]).
           destruct It1 as [rst ->]. unfold table_scoped in Sc. rewrite forallb_forall in Sc.
           apply (Sc (S (closure_uid x), _)). apply in_or_app. left. rewrite <- Ex1. cbn [closures]. apply in_or_app. right. left. reflexivity.
        -- intros n Hn. apply in_app_or in Hn. destruct Hn as [Hn|Hn].
           ++ apply bound_app with (l := muts x); [|exact Hn]. apply bound_cons, bound_cons, Bm.
           ++ apply in_app_or in Hn. destruct Hn as [Hn|Hn].
              ** rewrite <- Fx, Fxs in Hn. apply in_app_or in Hn. destruct Hn as [Hn|Hn].
                 --- apply bound_app with (l := frees y'); [|exact Hn]. apply bound_cons, bound_cons, Bf.
                 --- exact (@binds_bound fr xs vs _ F3 n Hn).
              ** apply bound_app with (l := marks x); [|exact Hn]. apply bound_cons, bound_cons, Bk.
      * apply pair_inj in Es; destruct Es as [<- _]. exact Q.
    + intros ei. destruct (K ei) as [cur Q]. exists cur.
      eapply ev_let_mark; [reflexivity|]. eapply ev_let_bool. cbn [current run_at]. exact Q.
  - (* star *)
    start. destruct m.
    + apply cbind_ok in HC. destruct HC as ([body x1'] & E & HC). apply cbind_ok in E. destruct E as ([body' x1] & E & E').
      apply COk_inj, pair_inj in E'. destruct E' as [-> <-]. apply COk_inj in HC.
      apply repeat_code_0 in HC. destruct HC as (mk & Emk & -> & Em).
      pose proof (compile_shape (m := Rec) I E) as Sh. pose proof (sh_frees Sh) as (q & Q1 & Q2). destruct q; [|discriminate].
      rewrite app_nil_r in Q1. apply pair_inj in Em. destruct Em as [_ <-].
      assert (Nm : ~ old x mk) by (rewrite Emk; simpl; pose proof (le_mark (sh_le Sh)); lia).
      exists [(mk, SStream (strm s1))], []. split; [simpl; rewrite app_nil_r; exact Q1|].
      split; [apply intro_cons; [left; exact Nm|apply intro_nil]|]. split; [constructor|].
      intros ei e2 st2 l2 K. eapply ev_let_mark; [reflexivity|]. cbn [current run_at].
      refine (IHep Hs Hp fuel NX x body x1 cl en None mk _ E Ox It Sc _ Bf _ Bk _ _ Nm _ ei 0 [] st2 _ l2 _); try discriminate.
      * intros. destruct (star_env_app Rec None mk NX n s0 acc en) as [pp ->]. apply bound_app, Bm.
      * intros cur. eapply ev_restore_ff; [unfold star_env, get_stream; cbn [app]; rewrite lookup_head; reflexivity|reflexivity|reflexivity|].
        exact K.
    + apply cbind_ok in HC. destruct HC as ([r0 x1] & Er & HC). destruct (open_scope (card G e) x1) as [sc x2] eqn:Eo.
      apply cbind_ok in HC. destruct HC as ([body x4'] & E & HC). apply cbind_ok in E. destruct E as ([body' x4] & E & E').
      apply COk_inj, pair_inj in E'. destruct E' as [-> <-].
      apply cbind_ok in HC. destruct HC as (x5 & Ec & HC).
      destruct (repeat_code 0 k CFailure body x5) as [cc x6] eqn:Erc. apply COk_inj, pair_inj in HC. destruct HC as [<- <-].
      apply repeat_code_0 in Erc. destruct Erc as (mk & Emk & -> & Em).
      destruct (scope_facts Ox Er Eo (prog_coh Hp) E Ec) as (F1 & O3 & Fy & Or & Nr & Mt & Mk & L5 & F5 & M5 & Rx & Bx).
      apply pair_inj in Em. destruct Em as [_ <-].
      assert (Nm : ~ old (push_mut r0 x2) mk) by (rewrite Emk; simpl; pose proof (le_mark L5); pose proof (le_mark Rx); simpl in *; lia).
      assert (Nrm : r0 <> mk) by (intros ->; contradiction).
      exists [(mk, SStream (strm s1)); (r0, SVal (VVec vs))], [r0].
      split; [simpl; rewrite F5; exact F1|].
      split; [apply intro_cons; [left; intros Q; apply Nm; eapply old_le; [exact Bx|exact Q]|]; apply intro_cons; [right; left; reflexivity|apply intro_nil]|].
      split; [constructor; [rewrite lookup_skip by exact Nrm; apply lookup_head|constructor]|].
      intros ei e2 st2 l2 K. eapply ev_let_vec. eapply ev_let_mark; [reflexivity|]. cbn [current run_at].
      refine (IHep Hs Hp fuel r0 (push_mut r0 x2) body x4 cl en None mk _ E O3 _ Sc _ _ _ _ _ _ Nm _ ei 0 [] st2 _ l2 _); try discriminate.
      * eapply in_table_le; [|exact It]. eapply ctx_le_trans; [exact L5|]. eapply sh_le, sh_mark. reflexivity.
      * intros _. exact Fy.
      * rewrite Fy. intros n [].
      * intros. rewrite Mt. intros z [<-|[]]. unfold star_env. cbn [app]. rewrite lookup_skip by exact Nrm. rewrite lookup_head. discriminate.
      * rewrite Mk. exact Bk.
      * intros _. split; [exact Or|]. split; [exact Nr|]. split; [exact Nrm|discriminate].
      * intros cur. eapply ev_restore_ff; [unfold star_env, get_stream; cbn [app]; rewrite lookup_head; reflexivity|reflexivity|reflexivity|].
        exact K.
  - (* plus *)
    start. pose proof (ep_suffix1 H1 Hs) as Hs1. destruct m.
    + apply cbind_ok in HC. destruct HC as ([body x1'] & E & HC). apply cbind_ok in E. destruct E as ([body' x1] & E & E').
      apply COk_inj, pair_inj in E'. destruct E' as [-> <-]. apply COk_inj in HC.
      apply repeat_code_1 in HC. destruct HC as (mk & kc & x2 & Emk & Ekc & -> & Em & Em2).
      pose proof (compile_shape (m := Rec) I E) as Sh. pose proof (sh_frees Sh) as (q & Q1 & Q2). destruct q; [|discriminate].
      rewrite app_nil_r in Q1. apply pair_inj in Em. destruct Em as [_ <-]. apply pair_inj in Em2. destruct Em2 as [_ <-].
      assert (Nm : ~ old x mk) by (rewrite Emk; simpl; pose proof (le_mark (sh_le Sh)); lia).
      assert (Nk : ~ old x kc) by (rewrite Ekc; simpl; pose proof (le_counter (sh_le Sh)); lia).
      assert (Nmk : Some mk <> Some kc) by (rewrite Emk, Ekc; discriminate).
      pose proof (@loop_ctx_rec fuel e x body x1 cl en (Some kc) mk E Ox It Sc Bf Bm Bk Nmk) as LC.
      exists [(kc, SNat (0 + length (tup vs1 :: vs2))); (mk, SStream (strm s2))], []. split; [simpl; rewrite app_nil_r; exact Q1|].
      split; [apply intro_cons; [left; exact Nk|]; apply intro_cons; [left; exact Nm|apply intro_nil]|]. split; [constructor|].
      intros ei e2 st2 l2 K. eapply ev_let_mark; [reflexivity|]. eapply ev_let_counter. cbn [current run_at].
      refine (@star_more Rec fuel e NX x body x1 cl en (Some kc) mk _ s s1 vs1 evs1 s2 vs2 evs2 Hs Hp LC IHep1 _ ei 0 [] st2 _ l2 _).
      * pose proof LC as (_ & _ & _ & _ & C5 & _ & C7 & _ & C9 & _).
        refine (IHep2 Hs1 Hp fuel NX x body x1 cl en (Some kc) mk _ E Ox It Sc C5 Bf C7 Bk C9 Nmk Nm _).
        intros n Q. injection Q; intros <-. exact Nk.
      * intros cur. eapply ev_if_less; [unfold star_env, get_nat; cbn [app]; rewrite lookup_head; reflexivity|]. cbn [length plus Nat.ltb Nat.leb].
        eapply ev_restore_ff; [unfold star_env, get_stream; cbn [app]; rewrite lookup_skip by congruence; rewrite lookup_head; reflexivity|reflexivity|reflexivity|].
        exact K.
    + apply cbind_ok in HC. destruct HC as ([r0 x1] & Er & HC). destruct (open_scope (card G e) x1) as [sc x2] eqn:Eo.
      apply cbind_ok in HC. destruct HC as ([body x4'] & E & HC). apply cbind_ok in E. destruct E as ([body' x4] & E & E').
      apply COk_inj, pair_inj in E'. destruct E' as [-> <-].
      apply cbind_ok in HC. destruct HC as (x5 & Ec & HC).
      destruct (repeat_code 1 k CFailure body x5) as [cc x6] eqn:Erc. apply COk_inj, pair_inj in HC. destruct HC as [<- <-].
      apply repeat_code_1 in Erc. destruct Erc as (mk & kc & x7 & Emk & Ekc & -> & Em & Em2).
      destruct (scope_facts Ox Er Eo (prog_coh Hp) E Ec) as (F1 & O3 & Fy & Or & Nr & Mt & Mk & L5 & F5 & M5 & Rx & Bx).
      pose proof (sh_le (sh_mark Em)) as La. pose proof (sh_le (sh_counter Em2)) as Lb.
      apply pair_inj in Em. destruct Em as [_ <-]. apply pair_inj in Em2. destruct Em2 as [_ <-].
      assert (Nm : ~ old (push_mut r0 x2) mk) by (rewrite Emk; simpl; pose proof (le_mark L5); pose proof (le_mark Rx); simpl in *; lia).
      assert (Nk : ~ old (push_mut r0 x2) kc) by (rewrite Ekc; simpl; pose proof (le_counter L5); pose proof (le_counter Rx); simpl in *; lia).
      assert (Nmk : Some mk <> Some kc) by (rewrite Emk, Ekc; discriminate).
      assert (Nrm : r0 <> mk) by (intros ->; contradiction).
      assert (Nrk : r0 <> kc) by (intros ->; contradiction).
      assert (It4 : in_table x4 cl).
      { eapply in_table_le; [|exact It]. eapply ctx_le_trans; [exact L5|]. eapply ctx_le_trans; [exact La|exact Lb]. }
      assert (C7 : forall n s acc, bound (muts (push_mut r0 x2)) (star_env Par (Some kc) mk r0 n s acc en)).
      { intros. rewrite Mt. intros z [<-|[]]. unfold star_env. cbn [app]. rewrite !lookup_skip by assumption. rewrite lookup_head. discriminate. }
      assert (C9 : Par = Par -> old (push_mut r0 x2) r0 /\ ~ In r0 (frees (push_mut r0 x2)) /\ r0 <> mk /\ Some r0 <> Some kc).
      { intros _. split; [exact Or|]. split; [exact Nr|]. split; [exact Nrm|congruence]. }
      assert (B4 : bound (frees x4) en) by (rewrite Fy; intros n []).
      assert (Bk4 : bound (marks (push_mut r0 x2)) en) by (rewrite Mk; exact Bk).
      assert (LC : loop_ctx Par fuel e r0 (push_mut r0 x2) body x4 cl en (Some kc) mk).
      { repeat (split; [first [assumption|intros _; assumption]|]). assumption. }
      exists [(kc, SNat (0 + length (tup vs1 :: vs2))); (mk, SStream (strm s2)); (r0, SVal (VVec (tup vs1 :: vs2)))], [r0].
      split; [simpl; rewrite F5; exact F1|].
      split.
      { apply intro_cons; [left; intros Q; apply Nk; eapply old_le; [exact Bx|exact Q]|].
        apply intro_cons; [left; intros Q; apply Nm; eapply old_le; [exact Bx|exact Q]|]. apply intro_cons; [right; left; reflexivity|apply intro_nil]. }
      split; [constructor; [rewrite !lookup_skip by assumption; apply lookup_head|constructor]|].
      intros ei e2 st2 l2 K. eapply ev_let_vec. eapply ev_let_mark; [reflexivity|]. eapply ev_let_counter. cbn [current run_at].
      refine (@star_more Par fuel e r0 _ body x4 cl en (Some kc) mk _ s s1 vs1 evs1 s2 vs2 evs2 Hs Hp LC IHep1 _ ei 0 [] st2 _ l2 _).
      * refine (IHep2 Hs1 Hp fuel r0 _ body x4 cl en (Some kc) mk _ E O3 It4 Sc _ B4 C7 Bk4 C9 Nmk Nm _); [intros _; exact Fy|].
        intros n Q. injection Q; intros <-. exact Nk.
      * intros cur. eapply ev_if_less; [unfold star_env, get_nat; cbn [app]; rewrite lookup_head; reflexivity|]. cbn [length plus Nat.ltb Nat.leb].
        eapply ev_restore_ff; [unfold star_env, get_stream; cbn [app]; rewrite lookup_skip by congruence; rewrite lookup_head; reflexivity|reflexivity|reflexivity|].
        exact K.
  - (* plus, failure *)
    start. destruct m.
    + apply cbind_ok in HC. destruct HC as ([body x1'] & E & HC). apply cbind_ok in E. destruct E as ([body' x1] & E & E').
      apply COk_inj, pair_inj in E'. destruct E' as [-> <-]. apply COk_inj in HC.
      apply repeat_code_1 in HC. destruct HC as (mk & kc & x2 & Emk & Ekc & -> & Em & Em2).
      pose proof (compile_shape (m := Rec) I E) as Sh. pose proof (sh_frees Sh) as (q & Q1 & Q2). destruct q; [|discriminate].
      rewrite app_nil_r in Q1. apply pair_inj in Em. destruct Em as [_ <-]. apply pair_inj in Em2. destruct Em2 as [_ <-].
      assert (Nmk : Some mk <> Some kc) by (rewrite Emk, Ekc; discriminate).
      pose proof (@loop_ctx_rec fuel e x body x1 cl en (Some kc) mk E Ox It Sc Bf Bm Bk Nmk) as LC.
      intros ei.
      assert (Bd : exists cur, evals cl body (run_at s ei) ((kc, SNat 0) :: (mk, SStream (strm s)) :: en)
                  (fail_at cur (recd ei evs), (kc, SNat 0) :: (mk, SStream (strm s)) :: en, acts evs)).
      { refine (body_rec Hs Hp IHep E _ ei). split; [exact Ox|]. split; [exact It|]. split; [exact Sc|].
        split; [apply bound_cons, bound_cons, Bf|]. split; [apply bound_cons, bound_cons, Bm|apply bound_cons, bound_cons, Bk]. }
      destruct Bd as [cur B]. exists cur. rewrite <- (app_nil_r (acts evs)).
      eapply ev_let_mark; [reflexivity|]. eapply ev_let_counter. eapply ev_loop_stop; [exact B|reflexivity|].
      eapply ev_if_less; [unfold get_nat; rewrite lookup_head; reflexivity|]. cbn [Nat.ltb Nat.leb].
      apply (@ev_failure _ _ cl (fail_at cur (recd ei evs))).
    + apply cbind_ok in HC. destruct HC as ([r0 x1] & Er & HC). destruct (open_scope (card G e) x1) as [sc x2] eqn:Eo.
      apply cbind_ok in HC. destruct HC as ([body x4'] & E & HC). apply cbind_ok in E. destruct E as ([body' x4] & E & E').
      apply COk_inj, pair_inj in E'. destruct E' as [-> <-].
      apply cbind_ok in HC. destruct HC as (x5 & Ec & HC).
      destruct (repeat_code 1 k CFailure body x5) as [cc x6] eqn:Erc. apply COk_inj, pair_inj in HC. destruct HC as [<- <-].
      apply repeat_code_1 in Erc. destruct Erc as (mk & kc & x7 & Emk & Ekc & -> & Em & Em2).
      destruct (scope_facts Ox Er Eo (prog_coh Hp) E Ec) as (F1 & O3 & Fy & Or & Nr & Mt & Mk & L5 & F5 & M5 & Rx & Bx).
      pose proof (sh_le (sh_mark Em)) as La. pose proof (sh_le (sh_counter Em2)) as Lb.
      apply pair_inj in Em. destruct Em as [_ <-]. apply pair_inj in Em2. destruct Em2 as [_ <-].
      assert (Nm : ~ old (push_mut r0 x2) mk) by (rewrite Emk; simpl; pose proof (le_mark L5); pose proof (le_mark Rx); simpl in *; lia).
      assert (Nk : ~ old (push_mut r0 x2) kc) by (rewrite Ekc; simpl; pose proof (le_counter L5); pose proof (le_counter Rx); simpl in *; lia).
      assert (Nrm : r0 <> mk) by (intros ->; contradiction).
      assert (Nrk : r0 <> kc) by (intros ->; contradiction).
      assert (It4 : in_table x4 cl).
      { eapply in_table_le; [|exact It]. eapply ctx_le_trans; [exact L5|]. eapply ctx_le_trans; [exact La|exact Lb]. }
      intros ei. set (e1 := (kc, SNat 0) :: (mk, SStream (strm s)) :: (r0, SVal (VVec [])) :: en).
      assert (Ge1 : good_env cl (push_mut r0 x2) x4 e1).
      { split; [exact O3|]. split; [exact It4|]. split; [exact Sc|]. split; [rewrite Fy; intros n []|]. split.
        - rewrite Mt. intros z [<-|[]]. unfold e1. rewrite !lookup_skip by assumption. rewrite lookup_head. discriminate.
        - rewrite Mk. apply bound_cons, bound_cons, bound_cons, Bk. }
      destruct (IHep Hs Hp _ _ _ _ _ _ _ E Ge1 ei) as [cur B]. exists cur. rewrite <- (app_nil_r (acts evs)).
      eapply ev_let_vec. eapply ev_let_mark; [reflexivity|]. eapply ev_let_counter. eapply ev_loop_stop; [exact B|reflexivity|].
      eapply ev_if_less; [unfold get_nat, e1; rewrite lookup_head; reflexivity|]. cbn [Nat.ltb Nat.leb].
      apply (@ev_failure _ _ cl (fail_at cur (recd ei evs))).
  - (* option *)
    start. destruct m.
    + apply cbind_ok in HC. destruct HC as ([body x1'] & E & HC). apply cbind_ok in E. destruct E as ([body' x1] & E & E').
      apply COk_inj, pair_inj in E'. destruct E' as [-> <-]. apply COk_inj in HC.
      apply optional_code_eq in HC. destruct HC as (mk & Emk & -> & Em).
      pose proof (compile_shape (m := Rec) I E) as Sh. pose proof (sh_frees Sh) as (q & Q1 & Q2). destruct q; [|discriminate].
      rewrite app_nil_r in Q1. apply pair_inj in Em. destruct Em as [_ <-].
      assert (Nm : ~ old x mk) by (rewrite Emk; simpl; pose proof (le_mark (sh_le Sh)); lia).
      exists [(mk, SStream (strm s))], []. split; [simpl; rewrite app_nil_r; exact Q1|].
      split; [apply intro_cons; [left; exact Nm|apply intro_nil]|]. split; [constructor|].
      intros ei e2 st2 l2 K. eapply ev_let_mark; [reflexivity|].
      eapply ev_assign.
      * refine (body_rec Hs Hp IHep E _ ei). split; [exact Ox|]. split; [exact It|]. split; [exact Sc|].
        split; [apply bound_cons, Bf|]. split; [apply bound_cons, Bm|apply bound_cons, Bk].
      * apply ev_if_not_failed; [reflexivity|]. exact K.
    + apply cbind_ok in HC. destruct HC as ([r0 x1] & Er & HC). destruct (open_scope (card G e) x1) as [sc x2] eqn:Eo.
      apply cbind_ok in HC. destruct HC as ([body x4'] & E & HC). apply cbind_ok in E. destruct E as ([body' x4] & E & E').
      apply COk_inj, pair_inj in E'. destruct E' as [-> <-].
      apply cbind_ok in HC. destruct HC as (x5 & Ec & HC).
      destruct (optional_code k body x5) as [cc x6] eqn:Erc. apply COk_inj, pair_inj in HC. destruct HC as [<- <-].
      apply optional_code_eq in Erc. destruct Erc as (mk & Emk & -> & Em).
      destruct (scope_facts Ox Er Eo (prog_coh Hp) E Ec) as (F1 & O3 & Fy & Or & Nr & Mt & Mk & L5 & F5 & M5 & Rx & Bx).
      pose proof (sh_le (sh_mark Em)) as La.
      apply pair_inj in Em. destruct Em as [_ <-].
      assert (Nm : ~ old (push_mut r0 x2) mk) by (rewrite Emk; simpl; pose proof (le_mark L5); pose proof (le_mark Rx); simpl in *; lia).
      assert (Nrm : r0 <> mk) by (intros ->; contradiction).
      assert (It4 : in_table x4 cl).
      { eapply in_table_le; [|exact It]. eapply ctx_le_trans; [exact L5|exact La]. }
      set (e1 := (mk, SStream (strm s)) :: (r0, SVal VNone) :: en).
      assert (Ge1 : good_env cl (push_mut r0 x2) x4 e1).
      { split; [exact O3|]. split; [exact It4|]. split; [exact Sc|]. split; [rewrite Fy; intros n []|]. split.
        - rewrite Mt. intros z [<-|[]]. unfold e1. rewrite !lookup_skip by assumption. rewrite lookup_head. discriminate.
        - rewrite Mk. apply bound_cons, bound_cons, Bk. }
      destruct (IHep Hs Hp _ _ _ _ _ _ _ E Ge1) as (fr & ys & Ef & In1 & Bn & K). rewrite Fy in Ef. cbn [app] in Ef.
      exists [(mk, SStream (strm s)); (r0, SVal (VSome (tup vs)))], [r0].
      split; [simpl; rewrite F5; exact F1|].
      split.
      { apply intro_cons; [left; intros Q; apply Nm; eapply old_le; [exact Bx|exact Q]|]. apply intro_cons; [right; left; reflexivity|apply intro_nil]. }
      split; [constructor; [rewrite !lookup_skip by assumption; apply lookup_head|constructor]|].
      intros ei e2 st2 l2 Q. eapply ev_let_none. eapply ev_let_mark; [reflexivity|]. cbn [current run_at].
      assert (D : ~ In r0 (dom fr)) by (eapply intro_fresh; [exact In1|exact Or|rewrite <- Ef; exact Nr]).
      eapply ev_assign.
      * rewrite <- (app_nil_r (acts evs)). apply (K ei ((mk, SStream (strm s)) :: (r0, SVal (VSome (tup vs))) :: en)).
        eapply ev_set_some.
        -- rewrite get_val_app by exact D. unfold get_val, e1. rewrite lookup_skip by assumption. rewrite lookup_head. reflexivity.
        -- rewrite Ef. apply binds_get, Bn.
        -- rewrite update_app_not by exact D. unfold e1. rewrite update_skip by assumption. rewrite update_head. apply ev_state.
      * apply ev_if_not_failed; [reflexivity|]. exact Q.
  - start. destruct m.
    + apply cbind_ok in HC. destruct HC as ([body x1'] & E & HC). apply cbind_ok in E. destruct E as ([body' x1] & E & E').
      apply COk_inj, pair_inj in E'. destruct E' as [-> <-]. apply COk_inj in HC.
      apply optional_code_eq in HC. destruct HC as (mk & Emk & -> & Em).
      pose proof (compile_shape (m := Rec) I E) as Sh. pose proof (sh_frees Sh) as (q & Q1 & Q2). destruct q; [|discriminate].
      rewrite app_nil_r in Q1. apply pair_inj in Em. destruct Em as [_ <-].
      assert (Nm : ~ old x mk) by (rewrite Emk; simpl; pose proof (le_mark (sh_le Sh)); lia).
      exists [(mk, SStream (strm s))], []. split; [simpl; rewrite app_nil_r; exact Q1|].
      split; [apply intro_cons; [left; exact Nm|apply intro_nil]|]. split; [constructor|].
      intros ei e2 st2 l2 K. eapply ev_let_mark; [reflexivity|].
      assert (Bd : exists cur, evals cl body (run_at s ei) ((mk, SStream (strm s)) :: en)
                  (fail_at cur (recd ei evs), (mk, SStream (strm s)) :: en, acts evs)).
      { refine (body_rec Hs Hp IHep E _ ei). split; [exact Ox|]. split; [exact It|]. split; [exact Sc|].
        split; [apply bound_cons, Bf|]. split; [apply bound_cons, Bm|apply bound_cons, Bk]. }
      destruct Bd as [cur B]. eapply ev_assign; [exact B|].
      eapply ev_if_failed; [unfold get_stream; rewrite lookup_head; reflexivity|reflexivity|reflexivity|]. exact K.
    + apply cbind_ok in HC. destruct HC as ([r0 x1] & Er & HC). destruct (open_scope (card G e) x1) as [sc x2] eqn:Eo.
      apply cbind_ok in HC. destruct HC as ([body x4'] & E & HC). apply cbind_ok in E. destruct E as ([body' x4] & E & E').
      apply COk_inj, pair_inj in E'. destruct E' as [-> <-].
      apply cbind_ok in HC. destruct HC as (x5 & Ec & HC).
      destruct (optional_code k body x5) as [cc x6] eqn:Erc. apply COk_inj, pair_inj in HC. destruct HC as [<- <-].
      apply optional_code_eq in Erc. destruct Erc as (mk & Emk & -> & Em).
      destruct (scope_facts Ox Er Eo (prog_coh Hp) E Ec) as (F1 & O3 & Fy & Or & Nr & Mt & Mk & L5 & F5 & M5 & Rx & Bx).
      pose proof (sh_le (sh_mark Em)) as La.
      apply pair_inj in Em. destruct Em as [_ <-].
      assert (Nm : ~ old (push_mut r0 x2) mk) by (rewrite Emk; simpl; pose proof (le_mark L5); pose proof (le_mark Rx); simpl in *; lia).
      assert (Nrm : r0 <> mk) by (intros ->; contradiction).
      assert (It4 : in_table x4 cl).
      { eapply in_table_le; [|exact It]. eapply ctx_le_trans; [exact L5|exact La]. }
      set (e1 := (mk, SStream (strm s)) :: (r0, SVal VNone) :: en).
      assert (Ge1 : good_env cl (push_mut r0 x2) x4 e1).
      { split; [exact O3|]. split; [exact It4|]. split; [exact Sc|]. split; [rewrite Fy; intros n []|]. split.
        - rewrite Mt. intros z [<-|[]]. unfold e1. rewrite !lookup_skip by assumption. rewrite lookup_head. discriminate.
        - rewrite Mk. apply bound_cons, bound_cons, Bk. }
      pose proof (IHep Hs Hp _ _ _ _ _ _ _ E Ge1) as K.
      exists [(mk, SStream (strm s)); (r0, SVal VNone)], [r0].
      split; [simpl; rewrite F5; exact F1|].
      split.
      { apply intro_cons; [left; intros Q; apply Nm; eapply old_le; [exact Bx|exact Q]|]. apply intro_cons; [right; left; reflexivity|apply intro_nil]. }
      split; [constructor; [rewrite !lookup_skip by assumption; apply lookup_head|constructor]|].
      intros ei e2 st2 l2 Q. eapply ev_let_none. eapply ev_let_mark; [reflexivity|]. cbn [current run_at].
      destruct (K ei) as [cur B]. eapply ev_assign; [exact B|].
      eapply ev_if_failed; [unfold get_stream, e1; rewrite lookup_head; reflexivity|reflexivity|reflexivity|]. exact Q.
  - (* !e *)
    start. destruct (next_mark x) as [mk x1] eqn:Em. apply cbind_ok in HC. destruct HC as ([body x2'] & E & HC).
    apply cbind_ok in E. destruct E as ([body' x2] & E & E'). apply COk_inj, pair_inj in E'. destruct E' as [-> <-].
    apply COk_inj, pair_inj in HC. destruct HC as [<- <-].
    destruct (pred_facts Ox Em E Ge s) as (Q1 & Nm & Ge1).
    exists [(mk, SStream (strm s))], []. split; [rewrite app_nil_r; exact Q1|].
    split; [apply intro_cons; [left; exact Nm|apply intro_nil]|]. split; [constructor|].
    intros ei e2 st2 l2 K. eapply ev_let_mark; [reflexivity|].
    destruct (body_rec Hs Hp IHep E Ge1 ei) as [cur B]. eapply ev_assign; [exact B|].
    eapply ev_test; [unfold get_stream; rewrite lookup_head; reflexivity|reflexivity|]. exact K.
  - start. destruct (next_mark x) as [mk x1] eqn:Em. apply cbind_ok in HC. destruct HC as ([body x2'] & E & HC).
    apply cbind_ok in E. destruct E as ([body' x2] & E & E'). apply COk_inj, pair_inj in E'. destruct E' as [-> <-].
    apply COk_inj, pair_inj in HC. destruct HC as [<- <-].
    destruct (pred_facts Ox Em E Ge s) as (Q1 & Nm & Ge1).
    intros ei. exists (strm s). eapply ev_let_mark; [reflexivity|].
    rewrite <- (app_nil_r (acts evs)). eapply ev_assign; [exact (body_rec Hs Hp IHep E Ge1 ei)|].
    eapply ev_test; [unfold get_stream; rewrite lookup_head; reflexivity|reflexivity|]. cbn [is_successful].
    apply (@ev_failure _ _ cl (run_at s (recd ei evs))).
  - (* &e *)
    start. destruct (next_mark x) as [mk x1] eqn:Em. apply cbind_ok in HC. destruct HC as ([body x2'] & E & HC).
    apply cbind_ok in E. destruct E as ([body' x2] & E & E'). apply COk_inj, pair_inj in E'. destruct E' as [-> <-].
    apply COk_inj, pair_inj in HC. destruct HC as [<- <-].
    destruct (pred_facts Ox Em E Ge s) as (Q1 & Nm & Ge1).
    exists [(mk, SStream (strm s))], []. split; [rewrite app_nil_r; exact Q1|].
    split; [apply intro_cons; [left; exact Nm|apply intro_nil]|]. split; [constructor|].
    intros ei e2 st2 l2 K. eapply ev_let_mark; [reflexivity|].
    eapply ev_assign; [exact (body_rec Hs Hp IHep E Ge1 ei)|].
    eapply ev_test; [unfold get_stream; rewrite lookup_head; reflexivity|reflexivity|]. exact K.
  - start. destruct (next_mark x) as [mk x1] eqn:Em. apply cbind_ok in HC. destruct HC as ([body x2'] & E & HC).
    apply cbind_ok in E. destruct E as ([body' x2] & E & E'). apply COk_inj, pair_inj in E'. destruct E' as [-> <-].
    apply COk_inj, pair_inj in HC. destruct HC as [<- <-].
    destruct (pred_facts Ox Em E Ge s) as (Q1 & Nm & Ge1).
    intros ei. exists (strm s). eapply ev_let_mark; [reflexivity|].
    destruct (body_rec Hs Hp IHep E Ge1 ei) as [cur B].
    rewrite <- (app_nil_r (acts evs)). eapply ev_assign; [exact B|].
    eapply ev_test; [unfold get_stream; rewrite lookup_head; reflexivity|reflexivity|]. cbn [is_successful].
    apply (@ev_failure _ _ cl (run_at s (recd ei evs))).
  - (* action *)
    start. eapply IHep; eassumption.
  - start. apply cbind_ok in HC. destruct HC as ([r0 x1] & Er & HC). destruct (open_scope (card G e) x1) as [sc x2] eqn:Eo.
    apply cbind_ok in HC. destruct HC as ([body x4'] & E & HC). apply cbind_ok in E. destruct E as ([body' x4] & E & E').
    apply COk_inj, pair_inj in E'. destruct E' as [-> <-].
    apply cbind_ok in HC. destruct HC as (x5 & Ec & HC). apply COk_inj, pair_inj in HC. destruct HC as [<- <-].
    destruct (scope_facts_act Ox Er Eo (prog_coh Hp) E Ec) as (F1 & O2 & Fy & Or & Nr & Mt & Mk & L5 & F5 & Lx & Nf).
    assert (Ge1 : good_env cl x2 x4 en).
    { split; [exact O2|]. split; [eapply in_table_le; [exact L5|exact It]|]. split; [exact Sc|].
      split; [rewrite Fy; intros n []|]. split; [rewrite Mt; intros n []|]. rewrite Mk. exact Bk. }
    destruct (IHep Hs Hp _ _ _ _ _ _ _ E Ge1) as (fr & ys & Ef & In1 & Bn & K). rewrite Fy in Ef. cbn [app] in Ef.
    set (v := act_value f (is_unit G e) b vs).
    exists ((r0, SVal v) :: fr), [r0]. split; [rewrite F5; exact F1|]. split.
    { apply intro_cons; [right; left; reflexivity|]. intros n Hn. destruct (In1 n Hn) as [Q|Q].
      - left. intros W. apply Q. eapply old_le; [exact Lx|exact W].
      - left. apply Nf. rewrite Ef. exact Q. }
    split; [constructor; [apply lookup_head|constructor]|].
    intros ei e2 st2 l2 Q. cbn [app] in Q.
    rewrite acts_app, <- app_assoc. apply (K ei).
    replace (acts (act_events f (is_unit G e) vs)) with (if unit_variant f (is_unit G e) then [] else [(f, vs)])
      by (unfold act_events; destruct (unit_variant f (is_unit G e)); reflexivity).
    eapply ev_let_act; [rewrite Ef; apply binds_get, Bn|]. cbv zeta.
    assert (Eq : recd ei (evs ++ act_events f (is_unit G e) vs) = recd ei evs).
    { rewrite recd_app. unfold act_events. destruct (unit_variant f (is_unit G e)); reflexivity. }
    rewrite Eq in Q. exact Q.
  - start. apply cbind_ok in HC. destruct HC as ([r0 x1] & Er & HC). destruct (open_scope (card G e) x1) as [sc x2] eqn:Eo.
    apply cbind_ok in HC. destruct HC as ([body x4'] & E & HC). apply cbind_ok in E. destruct E as ([body' x4] & E & E').
    apply COk_inj, pair_inj in E'. destruct E' as [-> <-].
    apply cbind_ok in HC. destruct HC as (x5 & Ec & HC). apply COk_inj, pair_inj in HC. destruct HC as [<- <-].
    destruct (scope_facts_act Ox Er Eo (prog_coh Hp) E Ec) as (F1 & O2 & Fy & Or & Nr & Mt & Mk & L5 & F5 & Lx & Nf).
    assert (Ge1 : good_env cl x2 x4 en).
    { split; [exact O2|]. split; [eapply in_table_le; [exact L5|exact It]|]. split; [exact Sc|].
      split; [rewrite Fy; intros n []|]. split; [rewrite Mt; intros n []|]. rewrite Mk. exact Bk. }
    exact (IHep Hs Hp _ _ _ _ _ _ _ E Ge1).
  - (* ascription *)
    start. eapply IHep; eassumption.
  - (* spans *)
    start. eapply IHep; eassumption.
  - start. destruct (next_mark x) as [lo x1] eqn:Em. apply cbind_ok in HC. destruct HC as ([r0 x2] & Er & HC).
    apply cbind_ok in HC. destruct HC as ([body x3'] & E & HC). apply cbind_ok in E. destruct E as ([body' x3] & E & E').
    apply COk_inj, pair_inj in E'. destruct E' as [-> <-]. apply COk_inj, pair_inj in HC. destruct HC as [<- <-].
    exact (@span_case false fuel x lo x1 e r0 x2 k body x3 cl en s (Some (s1, vs)) evs Ox Hs Hp Em Er E Ge IHep).
  - start. destruct (next_mark x) as [lo x1] eqn:Em. apply cbind_ok in HC. destruct HC as ([r0 x2] & Er & HC).
    apply cbind_ok in HC. destruct HC as ([body x3'] & E & HC). apply cbind_ok in E. destruct E as ([body' x3] & E & E').
    apply COk_inj, pair_inj in E'. destruct E' as [-> <-]. apply COk_inj, pair_inj in HC. destruct HC as [<- <-].
    exact (@span_case false fuel x lo x1 e r0 x2 k body x3 cl en s None evs Ox Hs Hp Em Er E Ge IHep).
  - start. eapply IHep; eassumption.
  - start. destruct (next_mark x) as [lo x1] eqn:Em. apply cbind_ok in HC. destruct HC as ([r0 x2] & Er & HC).
    apply cbind_ok in HC. destruct HC as ([body x3'] & E & HC). apply cbind_ok in E. destruct E as ([body' x3] & E & E').
    apply COk_inj, pair_inj in E'. destruct E' as [-> <-]. apply COk_inj, pair_inj in HC. destruct HC as [<- <-].
    exact (@span_case true fuel x lo x1 e r0 x2 k body x3 cl en s (Some (s1, vs)) evs Ox Hs Hp Em Er E Ge IHep).
  - start. destruct (next_mark x) as [lo x1] eqn:Em. apply cbind_ok in HC. destruct HC as ([r0 x2] & Er & HC).
    apply cbind_ok in HC. destruct HC as ([body x3'] & E & HC). apply cbind_ok in E. destruct E as ([body' x3] & E & E').
    apply COk_inj, pair_inj in E'. destruct E' as [-> <-]. apply COk_inj, pair_inj in HC. destruct HC as [<- <-].
    exact (@span_case true fuel x lo x1 e r0 x2 k body x3 cl en s None evs Ox Hs Hp Em Er E Ge IHep).
  - (* sequence of items *)
    intros Hs Hp fuel k x cd y cl en HC Ge. cbn [compile_seq] in HC. apply COk_inj, pair_inj in HC. destruct HC as [<- <-].
    exists [], []. split; [rewrite app_nil_r; reflexivity|]. split; [apply intro_nil|]. split; [constructor|].
    intros ei e2 st2 l2 K. exact K.
  - intros Hs Hp fuel k x cd y cl en HC Ge. destruct (seq_step Hp HC Ge) as (k1 & x1 & E1 & E2 & L1 & F1 & Ge1 & Ge2).
    pose proof (ep_suffix1 H Hs) as Hs1.
    destruct (IHep1 Hs Hp _ _ _ _ _ _ _ E2 Ge2) as (fr1 & xs1 & A1 & A2 & A3 & A4).
    assert (Bd : bound (frees x1) (fr1 ++ en)).
    { rewrite A1. apply bound_both; [apply bound_app; apply Ge|exact (@binds_bound fr1 xs1 vs1 _ A3)]. }
    destruct (IHep2 Hs1 Hp _ _ _ _ _ _ _ E1 (Ge1 fr1 Bd)) as (fr2 & xs2 & B1 & B2 & B3 & B4).
    exists (fr2 ++ fr1), (xs1 ++ xs2). split; [rewrite B1, A1, app_assoc; reflexivity|]. split; [|split].
    + apply intro_app.
      * eapply intro_sub; [exact B2|]. intros n Hn. apply in_or_app. auto.
      * eapply intro_sub; [eapply intro_le; [exact L1|exact A2]|]. intros n Hn. apply in_or_app. auto.
    + apply binds_join; [|apply binds_app, B3]. apply binds_under; [|exact A3].
      intros n Hn. eapply intro_fresh; [exact B2| |].
      * pose proof (ok_frees (proj1 Ge)) as W. rewrite Forall_forall in W. apply W. rewrite B1, A1.
        apply in_or_app. left. apply in_or_app. auto.
      * intros Q. pose proof (ok_nodup (proj1 Ge)) as D. rewrite B1, A1 in D.
        eapply NoDup_app_disj; [exact D| |exact Q]. apply in_or_app. auto.
    + intros ei e2 st2 l2 K. rewrite acts_app, <- app_assoc. apply A4. apply B4.
      rewrite <- recd_app. rewrite <- !app_assoc in K. exact K.
  - intros Hs Hp fuel k x cd y cl en HC Ge. destruct (seq_step Hp HC Ge) as (k1 & x1 & E1 & E2 & L1 & F1 & Ge1 & Ge2).
    pose proof (ep_suffix1 H Hs) as Hs1.
    destruct (IHep1 Hs Hp _ _ _ _ _ _ _ E2 Ge2) as (fr1 & xs1 & A1 & A2 & A3 & A4).
    assert (Bd : bound (frees x1) (fr1 ++ en)).
    { rewrite A1. apply bound_both; [apply bound_app; apply Ge|exact (@binds_bound fr1 xs1 vs1 _ A3)]. }
    intros ei. destruct (IHep2 Hs1 Hp _ _ _ _ _ _ _ E1 (Ge1 fr1 Bd) (recd ei evs1)) as [cur B].
    exists cur. rewrite recd_app, acts_app. apply A4. exact B.
  - intros Hs Hp fuel k x cd y cl en HC Ge. destruct (seq_step Hp HC Ge) as (k1 & x1 & E1 & E2 & L1 & F1 & Ge1 & Ge2).
    exact (IHep Hs Hp _ _ _ _ _ _ _ E2 Ge2).
  - (* alternatives *)
    intros Hs Hp fuel k x0 ms x bs y cl en bf mk nv HC. discriminate HC.
  - intros Hs Hp fuel k x0 ms x bs y cl en bf mk nv HC HF Ox Lx Mk Ms Nm Nb It Sc Bf Bm Bk.
    destruct (choice_step IHep Hs Hp HC HF Ox Lx Mk Ms Nm Nb It Sc Bf Bm Bk) as (b & rest & -> & Er & K).
    destruct r as [s1 vs]. destruct K as (fr & xs & F1 & F2 & F3 & K).
    exists fr, xs, (match l with [] => true | _ => false end). split; [exact F1|]. split; [exact F2|]. split; [exact F3|].
    intros ei e2 st2 l2 Q. specialize (K ei e2 st2 l2 Q). rewrite <- (app_nil_r (acts evs ++ l2)). eapply ev_assign; [exact K|].
    destruct l as [|j l].
    + rewrite Er. cbn [choice_code]. apply ev_state.
    + destruct rest as [|b2 rest]; cbn [choice_code]; [apply ev_state|].
      eapply ev_if_true; [unfold get_bool; rewrite lookup_head; reflexivity|]. apply ev_state.
  - intros Hs Hp fuel k x0 ms x bs y cl en bf mk nv HC HF Ox Lx Mk Ms Nm Nb It Sc Bf Bm Bk.
    destruct (choice_step IHep1 Hs Hp HC HF Ox Lx Mk Ms Nm Nb It Sc Bf Bm Bk) as (b & rest & -> & Er & K).
    destruct l as [|j l].
    + assert (r = None /\ evs2 = []) as [-> ->] by (inversion H0; auto). rewrite app_nil_r.
      intros ei. destruct (K ei) as [cur Q]. exists cur. rewrite Er. cbn [choice_code].
      rewrite <- (app_nil_r (acts evs1)). eapply ev_assign; [exact Q|apply ev_state].
    + destruct Er as (x' & Lx' & Mk' & HC').
      assert (HF' : Forall (fun j => ncard G m j = nv) (j :: l)) by (inversion HF; assumption).
      pose proof (IHep2 Hs Hp fuel k x0 ms x' rest y cl en bf mk nv HC' HF' Ox Lx' Mk' Ms Nm Nb It Sc Bf Bm Bk) as K2.
      cbv beta iota in K2. destruct rest as [|b2 rest].
      { exfalso. clear - HC'. cbn [compile_branches] in HC'. destruct l.
        - inv_ok.  discriminate.
        - inv_ok. discriminate. }
      assert (Step : forall ei cur R, evals cl (CAssign b2 (choice_code bf mk rest)) (run_at s (recd ei evs1)) ((bf, SBool true) :: (mk, SStream (strm s)) :: en) R ->
         evals cl (choice_code bf mk (b2 :: rest)) (fail_at cur (recd ei evs1)) ((bf, SBool true) :: (mk, SStream (strm s)) :: en) R).
      { intros ei cur R Q. cbn [choice_code]. eapply ev_if_true; [unfold get_bool; rewrite lookup_head; reflexivity|]. cbn iota.
        eapply ev_restore_ff; [unfold get_stream; rewrite lookup_skip by exact Nm; rewrite lookup_head; reflexivity|reflexivity|reflexivity|].
        exact Q. }
      destruct r as [[s1 vs]|].
      * destruct K2 as (fr & xs & v & F1 & F2 & F3 & K2).
        exists fr, xs, v. split; [exact F1|]. split; [exact F2|]. split; [exact F3|].
        intros ei e2 st2 l2 Q. destruct (K ei) as [cur W]. rewrite acts_app, <- app_assoc.
        eapply ev_assign; [exact W|]. apply Step. apply K2. rewrite <- recd_app. exact Q.
      * intros ei. destruct (K ei) as [cur W]. destruct (K2 (recd ei evs1)) as [cur2 W2].
        exists cur2. rewrite recd_app, acts_app. eapply ev_assign; [exact W|]. apply Step. exact W2.
  - (* repetitions *)
    intros Hs Hp fuel r0 x body y cl en kc mk after HC Ox It Sc Fy Bf Bm Bk Hr Nk Nm Nkc.
    assert (LC : loop_ctx m fuel e r0 x body y cl en kc mk) by (repeat (split; [assumption|]); assumption).
    intros ei n acc st2 e2 l2 K. eapply star_stop; [exact Hs|exact Hp|exact LC|exact IHep|].
    intros cur. specialize (K cur). cbn [length] in K. rewrite Nat.add_0_r, app_nil_r in K. exact K.
  - intros Hs Hp fuel r0 x body y cl en kc mk after HC Ox It Sc Fy Bf Bm Bk Hr Nk Nm Nkc.
    assert (LC : loop_ctx m fuel e r0 x body y cl en kc mk) by (repeat (split; [assumption|]); assumption).
    pose proof (ep_suffix1 H Hs) as Hs1.
    eapply star_more; [exact Hs|exact Hp|exact LC|exact IHep1|].
    exact (IHep2 Hs1 Hp fuel r0 x body y cl en kc mk after HC Ox It Sc Fy Bf Bm Bk Hr Nk Nm Nkc).
Qed.
End Correct.
