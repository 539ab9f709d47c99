(** Decision procedures for the hypotheses of the theorems about parsers, used on concrete grammars. *)
From Coq Require Import Ascii.
From Verif Require Import Base Grammar PegSpec Target Compile TargetFacts ScopeFacts CompileShape ScopeGen GenTotal WellFormed WfFacts Analysis AnalysisFacts
  Typing TypeRules SurfaceFacts RefFacts DepthFacts TypingSound TypingFit TypingTop TypingFuel MiddleFuel
  CharClass Front PropertiesFront PropertiesAnalysis Literals PropertiesMain RType Oak OakFacts PropertiesRules PropertiesOak PropertiesSignature PropertiesModule FrontSpec TreeSpec PropertiesLink.
Set Implicit Arguments. Unset Strict Implicit.
Open Scope string_scope. Open Scope nat_scope. Open Scope list_scope.

(** ---------------- names ---------------- *)
Fixpoint table_okb (pre cl : ctable) : bool :=
  match cl with
  | [] => true
  | (k, clo) :: post => closure_scoped clo && calls_in pre (kbody clo) && table_okb (pre ++ [(k, clo)]) post
  end.
Definition names_check (f : func) : bool := table_okb [] (fclosures f) && scoped [] [] (fbody f) && calls_in (fclosures f) (fbody f).
Lemma table_okb_ok cl : forall q, table_okb q cl = true -> forall pre k clo post, cl = pre ++ (k, clo) :: post -> closure_scoped clo = true /\ calls_in (q ++ pre) (kbody clo) = true.
Proof.
  induction cl as [|[k0 c0] cl IH]; intros q H pre k clo post E; [destruct pre; discriminate E|]. cbn [table_okb] in H. apply andb_prop in H. destruct H as [H H3]. apply andb_prop in H. destruct H as [H1 H2].
  destruct pre as [|p pre]; cbn [app] in E.
  - injection E as <- <- <-. rewrite app_nil_r. auto.
  - injection E as <- E. specialize (IH _ H3 pre k clo post E). rewrite <- app_assoc in IH. exact IH.
Qed.
Lemma names_check_ok f : names_check f = true -> no_unbound_name f.
Proof.
  intros H. unfold names_check in H. apply andb_prop in H. destruct H as [H H3]. apply andb_prop in H. destruct H as [H1 H2]. split; [|split; assumption].
  intros pre k clo post E. exact (table_okb_ok H1 E).
Qed.

(** ---------------- layers ---------------- *)
(** The expressions on which the type of [i] depends. *)
Fixpoint positions (G : grammar) (fuel i : nat) : list nat :=
  match fuel with
  | 0 => []
  | S n => i :: match expr_of G i with Some e => flat_map (positions G n) (visits e) | None => [] end
  end.
Definition mem (i : nat) (l : list nat) : bool := existsb (Nat.eqb i) l.
Definition closed (G : grammar) (root : nat) (P : list nat) : bool :=
  mem root P && forallb (fun i => match expr_of G i with Some e => forallb (fun c => mem c P) (visits e) | None => true end) P.
Lemma mem_in i l : mem i l = true -> In i l.
Proof. intros H. apply existsb_exists in H. destruct H as (x & I0 & E). apply Nat.eqb_eq in E. subst. exact I0. Qed.
Lemma closed_spos G P root : closed G root P = true -> forall i, spos G root i -> In i P.
Proof.
  intros H. apply andb_prop in H. destruct H as [H1 H2]. apply mem_in in H1. rewrite forallb_forall in H2. intros i R. revert H1.
  induction R as [x|x e c y Ex Ic R IH]; intros I0; [exact I0|]. apply IH. specialize (H2 x I0). rewrite Ex in H2. rewrite forallb_forall in H2. exact (mem_in (H2 c Ic)).
Qed.
(** The rules on which the type of [rl] depends. *)
Definition deps (G : grammar) (rl : rule) : list string :=
  flat_map (fun i => match expr_of G i with Some (ENT id) => [id] | _ => [] end) (positions G (S (length (exprs G))) (rexpr rl)).
(** Ranks: a rule is ranked once the other rules it depends on are. *)
Definition rank_of (R : list (string * nat)) (id : string) : option nat := match find (fun q => String.eqb (fst q) id) R with Some q => Some (snd q) | None => None end.
Fixpoint rounds (D : list (string * list string)) (n : nat) (k : nat) (R : list (string * nat)) : list (string * nat) :=
  match n with
  | 0 => R
  | S n' =>
    let now := filter (fun q => match rank_of R (fst q) with Some _ => false | None => forallb (fun d => String.eqb d (fst q) || match rank_of R d with Some _ => true | None => false end) (snd q) end) D in
    rounds D n' (S k) (R ++ map (fun q => (fst q, k)) now)
  end.
Definition ranks (G : grammar) : list (string * nat) :=
  let D := map (fun rl => (rname rl, deps G rl)) (rules G) in rounds D (S (length D)) 0 [].
Definition layer_check (G : grammar) (R : list (string * nat)) : bool :=
  forallb (fun rl =>
    match rank_of R (rname rl) with
    | None => true
    | Some k =>
      let P := positions G (S (length (exprs G))) (rexpr rl) in
      closed G (rexpr rl) P &&
      forallb (fun i => match expr_of G i with
                        | Some (ENT id) => String.eqb id (rname rl) || match rank_of R id with Some k' => k' <? k | None => false end
                        | _ => true
                        end) P
    end) (rules G).
Definition rk_of R id := match rank_of R id with Some k => k | None => 0 end.
Definition bad_of R id := match rank_of R id with Some _ => false | None => true end.
Definition self_of (G : grammar) (id : string) : Prop := exists rl, In rl (rules G) /\ rname rl = id /\ existsb (String.eqb id) (deps G rl) = true.
Lemma layer_check_ok G R : layer_check G R = true -> layered G (rk_of R) (self_of G) (bad_of R).
Proof.
  intros H rl i id Irl B S0 E. unfold layer_check in H. rewrite forallb_forall in H. specialize (H rl Irl). unfold bad_of in B. destruct (rank_of R (rname rl)) as [k|] eqn:K; [|discriminate].
  cbv zeta in H. apply andb_prop in H. destruct H as [H1 H2]. pose proof (closed_spos H1 S0) as IP. rewrite forallb_forall in H2. specialize (H2 i IP). rewrite E in H2.
  apply orb_prop in H2. destruct H2 as [H2|H2].
  - right. apply String.eqb_eq in H2. subst id. split; [reflexivity|]. exists rl. split; [exact Irl|]. split; [reflexivity|]. apply existsb_exists. exists (rname rl). split; [|apply String.eqb_refl].
    apply in_flat_map. exists i. split; [exact IP|]. rewrite E. left. reflexivity.
  - left. unfold bad_of, rk_of. destruct (rank_of R id) as [k'|]; [|discriminate]. rewrite K. apply Nat.ltb_lt in H2. auto.
Qed.

(** ---------------- recursion and choices ---------------- *)
Definition callsb (G : grammar) (id : string) (c : nat) : bool :=
  let P := positions G (S (length (exprs G))) c in
  negb (closed G c P) || existsb (fun i => match expr_of G i with Some (ENT x) => String.eqb x id | _ => false end) P.
Lemma callsb_ok G id c : calls G id c -> callsb G id c = true.
Proof.
  intros (j & R & Ej). unfold callsb. cbv zeta. destruct (closed G c (positions G (S (length (exprs G))) c)) eqn:C; [|reflexivity]. cbn [negb orb].
  apply existsb_exists. exists j. split; [exact (closed_spos C R)|]. rewrite Ej. apply String.eqb_refl.
Qed.
Lemma filter_one A (f : A -> bool) l : length (filter f l) <= 1 -> forall p q c d, nth_error l p = Some c -> nth_error l q = Some d -> f c = true -> f d = true -> p = q.
Proof.
  assert (Z : forall l, length (filter f l) = 0 -> forall p c, nth_error l p = Some c -> f c = true -> False).
  { clear. intros l Q p c Ep Fc. apply nth_error_In in Ep. assert (I0 : In c (filter f l)) by (apply filter_In; auto). destruct (filter f l); [destruct I0|discriminate Q]. }
  induction l as [|x l IH]; intros H p q c d Ep Eq Fc Fd; [destruct p; discriminate Ep|]. cbn [filter] in H. destruct p as [|p], q as [|q]; cbn in Ep, Eq.
  - reflexivity.
  - injection Ep as ->. rewrite Fc in H. cbn [length] in H. exfalso. exact (Z l ltac:(lia) q d Eq Fd).
  - injection Eq as ->. rewrite Fd in H. cbn [length] in H. exfalso. exact (Z l ltac:(lia) p c Ep Fc).
  - f_equal. refine (IH _ p q c d Ep Eq Fc Fd). destruct (f x); cbn [length] in H; lia.
Qed.
Definition linear_check (G : grammar) (id : string) : bool :=
  forallb (fun rl => negb (String.eqb (rname rl) id) ||
    let P := positions G (S (length (exprs G))) (rexpr rl) in
    closed G (rexpr rl) P && forallb (fun i => match expr_of G i with Some (ESeq l) => length (filter (callsb G id) l) <=? 1 | _ => true end) P) (rules G).
Lemma linear_check_ok G id : linear_check G id = true -> linear G id.
Proof.
  intros H rl i l Irl RN R Ei p q c d Ep Eq Cc Cd. unfold linear_check in H. rewrite forallb_forall in H. specialize (H rl Irl). rewrite RN, String.eqb_refl in H. cbn [negb orb] in H. cbv zeta in H.
  apply andb_prop in H. destruct H as [H1 H2]. rewrite forallb_forall in H2. specialize (H2 i (closed_spos H1 R)). rewrite Ei in H2. apply Nat.leb_le in H2.
  exact (filter_one H2 Ep Eq (callsb_ok Cc) (callsb_ok Cd)).
Qed.
(** The choices with a branch that calls the rule satisfy [ok]. *)
Definition back_check (G : grammar) (ok : nat -> bool) (rl : rule) : bool :=
  let P := positions G (S (length (exprs G))) (rexpr rl) in
  closed G (rexpr rl) P &&
  forallb (fun i => match expr_of G i with Some (EAlt l) => ok i || forallb (fun c => negb (mem c P && callsb G (rname rl) c)) l | _ => true end) (seq 0 (length (exprs G))).
Lemma in_mem i l : In i l -> mem i l = true.
Proof. intros I0. apply existsb_exists. exists i. split; [exact I0|apply Nat.eqb_refl]. Qed.
Lemma back_check_ok G ok rl : back_check G ok rl = true -> forall i l c, expr_of G i = Some (EAlt l) -> In c l -> spos G (rexpr rl) c -> calls G (rname rl) c -> ok i = true.
Proof.
  intros H i l c Ei Ic SP CA. unfold back_check in H. cbv zeta in H. apply andb_prop in H. destruct H as [H1 H2]. rewrite forallb_forall in H2.
  specialize (H2 i). rewrite Ei in H2. assert (L : i < length (exprs G)) by (apply nth_error_Some; unfold expr_of in Ei; congruence). specialize (H2 ltac:(apply in_seq; lia)).
  apply orb_prop in H2. destruct H2 as [H2|H2]; [exact H2|]. exfalso. rewrite forallb_forall in H2. specialize (H2 c Ic). rewrite (in_mem (closed_spos H1 SP)), (callsb_ok CA) in H2. discriminate H2.
Qed.
Definition selfb (G : grammar) (id : string) : bool := existsb (fun r => String.eqb (rname r) id && existsb (String.eqb id) (deps G r)) (rules G).
Lemma selfb_ok G id : self_of G id -> selfb G id = true.
Proof. intros (r & Ir & N & E). apply existsb_exists. exists r. split; [exact Ir|]. rewrite N, String.eqb_refl. exact E. Qed.
Definition rec_check (G G' : grammar) (R : list (string * nat)) (ok : nat -> nat -> bool) : bool :=
  forallb (fun rl => is_unit G' (rexpr rl) ||
    (negb (bad_of R (rname rl)) && (negb (selfb G (rname rl)) || (linear_check G (rname rl) && back_check G (ok (rexpr rl)) rl)))) (rules G).
Lemma rec_check_ok G G' R ok : rec_check G G' R ok = true -> forall rl, In rl (rules G) -> is_unit G' (rexpr rl) = true \/
  (bad_of R (rname rl) = false /\ (self_of G (rname rl) -> linear G (rname rl) /\
    forall i l c, expr_of G i = Some (EAlt l) -> In c l -> spos G (rexpr rl) c -> calls G (rname rl) c -> ok (rexpr rl) i = true)).
Proof.
  intros H rl Irl. unfold rec_check in H. rewrite forallb_forall in H. specialize (H rl Irl). apply orb_prop in H. destruct H as [H|H]; [left; exact H|right].
  apply andb_prop in H. destruct H as [H1 H2]. split; [apply negb_true_iff; exact H1|]. intros S0. apply selfb_ok in S0. rewrite S0 in H2. cbn [negb orb] in H2.
  apply andb_prop in H2. destruct H2 as [H2 H3]. split; [exact (linear_check_ok H2)|exact (back_check_ok H3)].
Qed.
Definition same_card (G' : grammar) (r i : nat) : bool := card G' r =? card G' i.
Lemma rec_ok_check G G' R : rec_check G G' R (same_card G') = true -> rec_ok G G' (self_of G) (bad_of R).
Proof.
  intros H rl Irl. destruct (rec_check_ok H Irl) as [U|(B & K)]; [left; exact U|right]. split; [exact B|]. intros S0. destruct (K S0) as (LI & A). split; [exact LI|].
  intros i l c Ei Ic SP CA. specialize (A i l c Ei Ic SP CA). apply Nat.eqb_eq in A. symmetry. exact A.
Qed.
(** Similar types. *)
Fixpoint similarb (G : grammar) (fuel : nat) (a b : ty) : bool :=
  match fuel with
  | 0 => false
  | S n =>
    let at_ i j := match ty_of G i, ty_of G j with Some u, Some v => similarb G n u v | _, _ => false end in
    match a, b with
    | TUnit, TUnit | TAtom, TAtom | TRust _, TRust _ => true
    | TOptional i, TOptional j | TList i, TList j => at_ i j
    | TTuple l1, TTuple l2 => (length l1 =? length l2) && forallb (fun p => at_ (fst p) (snd p)) (combine l1 l2)
    | _, _ => false
    end
  end.
Lemma similarb_ok G fuel : forall a b, similarb G fuel a b = true -> similar G a b.
Proof.
  induction fuel as [|n IH]; intros a b H; [discriminate H|]. cbn [similarb] in H. cbv zeta in H.
  assert (AT : forall i j, match ty_of G i, ty_of G j with Some u, Some v => similarb G n u v | _, _ => false end = true -> exists u v, ty_of G i = Some u /\ ty_of G j = Some v /\ similar G u v).
  { intros i j Q. destruct (ty_of G i) as [u|]; [|discriminate Q]. destruct (ty_of G j) as [v|]; [|discriminate Q]. exists u, v. auto. }
  destruct a, b; try discriminate H; try (constructor; fail).
  - destruct (AT _ _ H) as (u & v & Eu & Ev & SI). first [exact (si_list Eu Ev SI)|exact (si_optional Eu Ev SI)].
  - destruct (AT _ _ H) as (u & v & Eu & Ev & SI). first [exact (si_list Eu Ev SI)|exact (si_optional Eu Ev SI)].
  - apply andb_prop in H. destruct H as [H1 H2]. apply Nat.eqb_eq in H1. constructor. revert l0 H1 H2. induction l as [|i l IHl]; intros [|j l0] H1 H2; try discriminate H1; [constructor|].
    cbn [combine forallb fst snd] in H2. apply andb_prop in H2. destruct H2 as [H2 H3]. destruct (AT _ _ H2) as (u & v & Eu & Ev & SI). refine (si_cons Eu Ev SI (IHl l0 _ H3)). cbn in H1. congruence.
Qed.
Definition same_type (G' : grammar) (r i : nat) : bool := match ty_of G' r, ty_of G' i with Some a, Some b => similarb G' (S (length (exprs G'))) a b | _, _ => false end.
Lemma rec_alike_check G G' R : rec_check G G' R (same_type G') = true -> rec_alike G G' (self_of G) (bad_of R).
Proof.
  intros H rl Irl. destruct (rec_check_ok H Irl) as [U|(B & K)]; [left; exact U|right]. split; [exact B|]. intros S0. destruct (K S0) as (LI & A). split; [exact LI|].
  intros i l c Ei Ic (SP & CA). specialize (A i l c Ei Ic SP CA). unfold same_type in A. destruct (ty_of G' (rexpr rl)) as [a|]; [|discriminate A]. destruct (ty_of G' i) as [b|]; [|discriminate A].
  exists a, b. split; [reflexivity|]. split; [reflexivity|exact (similarb_ok A)].
Qed.
Fixpoint choices_from (G' : grammar) (ok : option ty -> option ty -> bool) (i : nat) (es : list expr) : bool :=
  match es with
  | [] => true
  | e :: es' => match e with EAlt l => forallb (fun j => ok (ty_of G' i) (ty_of G' j)) l | _ => true end && choices_from G' ok (S i) es'
  end.
Lemma choices_from_ok G' ok es : forall k, choices_from G' ok k es = true -> forall i l j, nth_error es i = Some (EAlt l) -> In j l -> ok (ty_of G' (k + i)) (ty_of G' j) = true.
Proof.
  induction es as [|e es IH]; intros k H i l j Ei Ij; [destruct i; discriminate|]. cbn [choices_from] in H. apply andb_prop in H. destruct H as [H1 H2]. destruct i as [|i].
  - injection Ei as ->. rewrite forallb_forall in H1. rewrite Nat.add_0_r. exact (H1 j Ij).
  - replace (k + S i) with (S k + i) by lia. exact (IH _ H2 i l j Ei Ij).
Qed.
Definition tuple_ok (t u : option ty) : bool := match t, u with Some (TTuple _), Some (TRust _) => false | _, _ => true end.
Definition foreign_ok (t u : option ty) : bool := match t, u with Some (TRust _), _ => true | _, Some (TRust _) => false | _, _ => true end.
Definition typable_check (g : agrammar) (G' : grammar) : bool :=
  let R := ranks (shape g) in
  layer_check (shape g) R && rec_check (shape g) G' R (same_card G') && choices_from G' tuple_ok 0 (exprs G').
Lemma typable_check_ok g G' : typable_check g G' = true -> typable_parsers g G'.
Proof.
  intros H. unfold typable_check in H. cbv zeta in H. apply andb_prop in H. destruct H as [H H3]. apply andb_prop in H. destruct H as [H1 H2].
  exists (rk_of (ranks (shape g))), (self_of (shape g)), (bad_of (ranks (shape g))). split; [exact (layer_check_ok H1)|]. split; [exact (rec_ok_check H2)|].
  intros i l j us s Ei Ij Et Eu. pose proof (@choices_from_ok G' tuple_ok (exprs G') 0 H3 i l j Ei Ij) as Q. cbn [Nat.add] in Q. rewrite Et, Eu in Q. discriminate Q.
Qed.
Lemma foreign_check_ok G' : choices_from G' foreign_ok 0 (exprs G') = true ->
  forall i l j s, expr_of G' i = Some (EAlt l) -> In j l -> ty_of G' j = Some (TRust s) -> exists r, ty_of G' i = Some (TRust r).
Proof.
  intros H i l j s Ei Ij Et. pose proof (@choices_from_ok G' foreign_ok (exprs G') 0 H i l j Ei Ij) as Q. cbn [Nat.add] in Q. rewrite Et in Q. destruct (ty_of G' i) as [[]|]; try discriminate Q. eauto.
Qed.

Definition values_check (g : agrammar) (G' : grammar) : bool :=
  let R := ranks (shape g) in
  layer_check (shape g) R && rec_check (shape g) G' R (same_type G') && choices_from G' foreign_ok 0 (exprs G').
Lemma values_check_ok g G' : values_check g G' = true -> typable_values g G'.
Proof.
  intros H. unfold values_check in H. cbv zeta in H. apply andb_prop in H. destruct H as [H H3]. apply andb_prop in H. destruct H as [H1 H2].
  exists (rk_of (ranks (shape g))), (self_of (shape g)), (bad_of (ranks (shape g))). split; [exact (layer_check_ok H1)|]. split; [exact (rec_alike_check H2)|exact (foreign_check_ok H3)].
Qed.

(** ---------------- the whole macro ---------------- *)
Section Macro.
Variables (rust_type : list tok -> option (string * list tok)) (rust_item : list tok -> option (rust_item * list tok)).
Variable return_type : string -> option string.
Variable generics : string -> string.
Local Notation oak := (oak rust_type rust_item return_type generics).

(** The checks on what [oak] computes. *)
Definition oak_check (fuel : nat) (ts : list tok) : bool :=
  match parse_grammar rust_type rust_item ts with
  | FOk fg =>
    match middle fuel fuel fg with
    | WOk (Some g) =>
      match type_inference (env_of return_type generics g fuel) fuel (shape g) with
      | WOk (Some G') =>
        match compile_mod_content generics g G' with
        | WOk m => typable_check g G' && values_check g G' && forallb (fun it => match it with MParser _ _ f => names_check f | _ => true end) m
        | _ => false
        end
      | _ => false
      end
    | _ => false
    end
  | _ => false
  end.
(** What the checks found is all there is. *)
Lemma expands_unique fuel ts fg g G' : parse_grammar rust_type rust_item ts = FOk fg -> middle fuel fuel fg = WOk (Some g) ->
  type_inference (env_of return_type generics g fuel) fuel (shape g) = WOk (Some G') ->
  forall g2 G2, expands rust_type rust_item (env_of return_type generics g2 fuel) ts g2 G2 -> g2 = g /\ G2 = G'.
Proof.
  intros P M T g2 G2 (fg2 & f2 & P2 & M2 & T2). assert (fg2 = fg) as -> by congruence. pose proof (middle_settles M) as M1.
  assert (g2 = g) as ->. { destruct M1 as (N1 & M1), M2 as (N2 & M2). specialize (M1 (N1 + N2) (N1 + N2) ltac:(lia) ltac:(lia)). rewrite M2 in M1 by lia. congruence. }
  split; [reflexivity|]. set (E := env_of return_type generics g fuel) in *.
  pose proof (@inference_more_fuel E E fuel (fuel + f2) (shape g) eq_refl eq_refl eq_refl ltac:(lia) ltac:(lia) ltac:(congruence)) as Q1.
  pose proof (@inference_more_fuel E E f2 (fuel + f2) (shape g) eq_refl eq_refl eq_refl ltac:(lia) ltac:(lia) ltac:(congruence)) as Q2. congruence.
Qed.
Theorem oak_check_ok fuel ts : oak_check fuel ts = true -> exists m, oak fuel ts = WOk (Some m) /\
  (forall g G', expands rust_type rust_item (env_of return_type generics g fuel) ts g G' -> typable_parsers g G' /\ typable_values g G') /\
  (forall n sg f, In (MParser n sg f) m -> no_unbound_name f).
Proof.
  unfold oak_check. intros H. destruct (parse_grammar rust_type rust_item ts) as [fg| |] eqn:P; try discriminate. destruct (middle fuel fuel fg) as [[g|]| |] eqn:M; try discriminate.
  destruct (type_inference (env_of return_type generics g fuel) fuel (shape g)) as [[G'|]| |] eqn:T; try discriminate. destruct (compile_mod_content generics g G') as [m| |] eqn:C; try discriminate.
  apply andb_prop in H. destruct H as [H H3]. apply andb_prop in H. destruct H as [H1 H2]. exists m. split.
  - unfold Oak.oak. rewrite P, M. cbn [wbind]. rewrite T. cbn [wbind]. rewrite C. reflexivity.
  - split.
    + intros g2 G2 EX. destruct (expands_unique P M T EX) as [-> ->]. split; [exact (typable_check_ok H1)|exact (values_check_ok H2)].
    + intros n sg f I0. rewrite forallb_forall in H3. exact (names_check_ok (H3 _ I0)).
Qed.
End Macro.

(** ---------------- rules that consume ---------------- *)
(** [true]: the expression [i] of the arena of the parser consumes when it matches. *)
Fixpoint cons_check (rs : list rule) (es : list expr) (fuel i : nat) : bool :=
  match fuel with
  | 0 => false
  | S n =>
    match nth_error es i with
    | Some (EStr s) => match s with [] => false | _ => true end
    | Some EAny | Some (EClass _) => true
    | Some (EExt [id]) => match find (fun r => String.eqb (rname r) id) rs with Some r => cons_check rs es n (rexpr r) | None => true end
    | Some (EExt _) => true
    | Some (ESeq l) => existsb (cons_check rs es n) l
    | Some (EAlt l) => forallb (cons_check rs es n) l
    | Some (EPlus j) | Some (EAct j _ _) | Some (EAsc j _) | Some (ESpan j) => cons_check rs es n j
    | Some (ERange u) => match nth_error es u with Some (EAsc j _) => cons_check rs es n j | _ => false end
    | _ => false
    end
  end.
Lemma trees_at_in es l : forall js t, trees_at es js l -> In t l -> exists j, In j js /\ tree_at es j t.
Proof.
  induction l as [|t0 l IH]; intros [|j js] t H I0; try (destruct I0; fail); try contradiction; destruct H as [H1 H2]; destruct I0 as [<-|I0].
  - exists j. split; [left; reflexivity|exact H1].
  - destruct (IH js t H2 I0) as (j' & I1 & H'). exists j'. split; [right; exact I1|exact H'].
Qed.
Lemma trees_at_nth es l : forall js j, trees_at es js l -> In j js -> exists t, In t l /\ tree_at es j t.
Proof.
  induction l as [|t0 l IH]; intros [|j0 js] j H I0; try (destruct I0; fail); try contradiction; destruct H as [H1 H2]; destruct I0 as [<-|I0].
  - exists t0. split; [left; reflexivity|exact H1].
  - destruct (IH js j H2 I0) as (t' & I1 & H'). exists t'. split; [right; exact I1|exact H'].
Qed.
Lemma rules_at_find es rs l id : rules_at es rs l ->
  match find (fun r => String.eqb (rname r) id) rs, find (fun q : string * tree => String.eqb (fst q) id) l with
  | Some r, Some q => tree_at es (rexpr r) (snd q)
  | None, None => True
  | _, _ => False
  end.
Proof. intros H. induction H as [|r q rs l [N T] _ IH]; cbn [find]; [exact I|]. rewrite N. destruct (String.eqb (fst q) id); [exact T|exact IH]. Qed.
Lemma cons_check_ok rs es l : rules_at es rs l -> forall fuel i t, cons_check rs es fuel i = true -> tree_at es i t -> consumes l t.
Proof.
  intros RA. induction fuel as [|n IH]; intros i t C T; [discriminate|]. cbn [cons_check] in C.
  destruct t as [s| |a b c|p|q|q|t|t|t|t|t|t b p|t y|t|t]; cbn [tree_at] in T; try (destruct T as (j & E & T)); try (rewrite T in C); try (rewrite E in C); try discriminate C; try (constructor; eauto; fail).
  - constructor. destruct s; discriminate.
  - destruct p as [|id p]; [apply cs_ext; reflexivity|]. destruct p as [|? ?]; [|apply cs_ext; reflexivity]. pose proof (@rules_at_find es rs l id RA) as F.
    destruct (find (fun r => String.eqb (rname r) id) rs) as [r|].
    + destruct (find (fun q : string * tree => String.eqb (fst q) id) l) as [q|] eqn:Fq; [|contradiction]. apply (@cs_call l [id] (snd q)); [cbn [rule_called]; rewrite Fq; reflexivity|exact (IH _ _ C F)].
    + apply cs_ext. cbn [rule_called]. destruct (find (fun q : string * tree => String.eqb (fst q) id) l) as [q|]; [contradiction|reflexivity].
  - apply existsb_exists in C. destruct C as (k & Ik & C). change (trees_at es j q) in T. destruct (trees_at_nth T Ik) as (t & It & Tt). exact (cs_seq It (IH _ _ C Tt)).
  - constructor. intros t It. change (trees_at es j q) in T. destruct (trees_at_in T It) as (k & Ik & Tt). rewrite forallb_forall in C. exact (IH _ _ (C k Ik) Tt).
  - destruct T as (Eu & Ej & T). rewrite Eu, Ej in C. constructor. exact (IH _ _ C T).
Qed.
