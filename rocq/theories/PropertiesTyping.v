(** Property theorems about type inference (C29, C32, C33, C34, C44).

    Vocabulary:
    - [well_built G] (TypingTop.v): what the parser of grammars and the first analyses guarantee;
    - [accepted G]: the well-formedness analysis accepts [G];
    - [type_inference E fuel G] (Typing.v): [WOk (Some G')] is acceptance with the typed grammar [G'],
      [WOk None] rejection, [WPanic] a panic, [WLoop] a lack of fuel;
    - [spos G x i] (TypingFit.v): the type of the expression [x] is computed from that of [i]; [layered]:
      the ranks show that no rule depends on itself through another rule, [bad] rules excepted. *)
From Coq Require Import Permutation.
From Verif Require Import Base Grammar PegSpec Target Compile CompileShape GenTotal WellFormed WfFacts Analysis AnalysisFacts Typing TypeRules SurfaceFacts
  RefFacts DepthFacts TypingSound TypingFit GenAgree TypingTop TypingVerdict TypingTotal TypingAnswer SumGrammar.
Set Implicit Arguments. Unset Strict Implicit.
Open Scope string_scope. Open Scope nat_scope. Open Scope list_scope.

(** ---------------- a decision procedure for the examples ---------------- *)
Definition ty_builtb (t : ity) : bool := match t with IInvisible | IRegular TUnit | IRegular (TRust _) => true | _ => false end.
Definition expr_builtb (G : grammar) (i : nat) (e : expr) : bool :=
  forallb (fun j => j <? i) (children e) &&
  match e with
  | ENT id => match find_rule G id with Some _ => true | None => false end
  | ESeq [] | EAlt [] | EClass [] => false
  | EAsc _ t => ty_builtb t
  | ERange j => match nth_error (exprs G) j with Some (EAsc _ (IRegular TUnit)) => true | _ => false end
  | _ => true
  end.
Fixpoint nodupb (l : list string) : bool := match l with [] => true | a :: l' => negb (existsb (String.eqb a) l') && nodupb l' end.
Definition well_builtb (G : grammar) : bool :=
  let n := length (exprs G) in let uses := map rexpr (rules G) ++ flat_map children (exprs G) in
  forallb (fun i => match nth_error (exprs G) i with Some e => expr_builtb G i e | None => true end) (seq 0 n)
  && (length uses =? n) && forallb (fun i => existsb (Nat.eqb i) uses) (seq 0 n) && nodupb (map rname (rules G))
  && match rules G with [] => false | _ => true end.
Lemma nodupb_ok l : nodupb l = true -> NoDup l.
Proof.
  induction l as [|a l IH]; intros H; [constructor|]. cbn [nodupb] in H. apply andb_true_iff in H. destruct H as [H1 H2]. constructor; [|exact (IH H2)].
  intros I. apply negb_true_iff in H1. assert (X : existsb (String.eqb a) l = true) by (apply existsb_exists; exists a; split; [exact I|apply String.eqb_refl]). congruence.
Qed.
Lemma well_builtb_ok G : well_builtb G = true -> well_built G.
Proof.
  unfold well_builtb. intros H. repeat (apply andb_true_iff in H; destruct H as [H ?]). rename H0 into H5, H1 into H4, H2 into H3, H3 into H2.
  assert (K : forall i e, expr_of G i = Some e -> expr_builtb G i e = true).
  { intros i e Ee. rewrite forallb_forall in H. specialize (H i). unfold expr_of in Ee. rewrite Ee in H. apply H. apply in_seq.
    assert (i < length (exprs G)) by (apply nth_error_Some; congruence). lia. }
  split.
  - intros i e Ee. specialize (K i e Ee). apply andb_true_iff in K. destruct K as [K _]. rewrite forallb_forall in K. apply Forall_forall. intros j Ij. apply Nat.ltb_lt, K, Ij.
  - apply Nat.eqb_eq in H2. apply Permutation_sym, NoDup_Permutation_bis; [apply seq_NoDup|rewrite seq_length; lia|].
    intros i Ii. rewrite forallb_forall in H3. specialize (H3 i Ii). apply existsb_exists in H3. destruct H3 as (x & Ix & Q). apply Nat.eqb_eq in Q. subst x. exact Ix.
  - apply nodupb_ok. exact H4.
  - intros Q. rewrite Q in H5. discriminate.
  - intros i id Ee. specialize (K _ _ Ee). unfold expr_builtb in K. cbn in K. destruct (find_rule G id); [eauto|discriminate].
  - intros i Ee. specialize (K _ _ Ee). discriminate.
  - intros i Ee. specialize (K _ _ Ee). discriminate.
  - intros i Ee. specialize (K _ _ Ee). discriminate.
  - intros i j t Ee. specialize (K _ _ Ee). unfold expr_builtb in K. apply andb_true_iff in K. destruct K as [_ K]. destruct t as [| | | |[]]; try discriminate K; eauto.
  - intros i j Ee. specialize (K _ _ Ee). unfold expr_builtb in K. apply andb_true_iff in K. destruct K as [_ K]. unfold expr_of.
    destruct (nth_error (exprs G) j) as [[]|]; try discriminate K. destruct t as [| | | |[]]; try discriminate K. eauto.
Qed.

(** The environment of the examples: [number] returns [u32]. *)
Definition E0 : tenv := mkEnv (fun s => if String.eqb s "number" then Some (Some "u32") else None) "SP" "RG" 50.

(** ---------------- C29 ---------------- *)
(** Recognizers: no condition. *)
Theorem C29_recognizers_generated : forall E fuel G G', well_built G -> type_inference E fuel G = WOk (Some G') ->
  forall rl, In rl (rules G') -> exists f, gen_rule G' Rec rl = COk f.
Proof. exact recognizers_generated. Qed.

(** Parsers.  [rec_ok G G' self bad] (TypingTop.v): a rule with data does not depend for its type on itself through another
    rule; and if it depends on itself, at most one operand of each of its sequences calls it, and its choices with a
    branch that calls it have as many values as the rule.  Also no choice of several values has an external parser as
    a branch.  Each of the three conditions is needed (below: [raG], [rcG], [exG]). *)
Theorem C29_codegen_no_panic_partial : forall E fuel G G' rk self bad, well_built G ->
  type_inference E fuel G = WOk (Some G') ->
  layered G rk self bad ->
  rec_ok G G' self bad ->
  (forall i l j ts s, expr_of G' i = Some (EAlt l) -> In j l -> ty_of G' i = Some (TTuple ts) -> ty_of G' j <> Some (TRust s)) ->
  forall rl m, In rl (rules G') -> exists f, gen_rule G' m rl = COk f.
Proof. intros E fuel G G' rk self bad WB H HL HU HR. exact (typed_gen_ok WB H HL HU HR). Qed.

(** [ra = "a" ra ra / "b" .]  and  [r = . . / f::recognizer]. *)
Definition raG : grammar := mkG [mkRule "ra" 7]
  [EStr [97%N]; ENT "ra"; ENT "ra"; ESeq [0; 1; 2]; EStr [98%N]; EAny; ESeq [4; 5]; EAlt [3; 6]] [].
Definition exG : grammar := mkG [mkRule "r" 4] [EAny; EAny; ESeq [0; 1]; EExt ["f"]; EAlt [2; 3]] [].
(** [ra = ("a" ra / "b" .) "c" .]: the choice has one value, the rule two. *)
Definition rcG : grammar := mkG [mkRule "ra" 9]
  [EStr [97%N]; ENT "ra"; ESeq [0; 1]; EStr [98%N]; EAny; ESeq [3; 4]; EAlt [2; 5]; EStr [99%N]; EAny; ESeq [6; 7; 8]] [].
Definition panics_after_typing (G : grammar) : Prop := well_built G /\ accepted G /\
  exists G' rl e, type_inference E0 50 G = WOk (Some G') /\ In rl (rules G') /\ gen_rule G' Par rl = CErr e.
Lemma raG_panics : panics_after_typing raG.
Proof.
  split; [apply well_builtb_ok; vm_compute; reflexivity|]. split; [exists 50, 20; vm_compute; reflexivity|].
  eexists. exists (mkRule "ra" 7). eexists. split; [vm_compute; reflexivity|]. split; [left; reflexivity|vm_compute; reflexivity].
Qed.
Lemma rcG_panics : panics_after_typing rcG.
Proof.
  split; [apply well_builtb_ok; vm_compute; reflexivity|]. split; [exists 50, 20; vm_compute; reflexivity|].
  eexists. exists (mkRule "ra" 9). eexists. split; [vm_compute; reflexivity|]. split; [left; reflexivity|vm_compute; reflexivity].
Qed.
Lemma exG_panics : panics_after_typing exG.
Proof.
  split; [apply well_builtb_ok; vm_compute; reflexivity|]. split; [exists 50, 20; vm_compute; reflexivity|].
  eexists. exists (mkRule "r" 4). eexists. split; [vm_compute; reflexivity|]. split; [left; reflexivity|vm_compute; reflexivity].
Qed.
Theorem C29_codegen_no_panic_refuted : ~ forall E fuel G G', well_built G -> accepted G -> type_inference E fuel G = WOk (Some G') ->
  forall rl m, In rl (rules G') -> exists f, gen_rule G' m rl = COk f.
Proof.
  intros H. destruct raG_panics as (WB & AC & G' & rl & e & TI & I & P). destruct (H E0 50 raG G' WB AC TI rl Par I) as (f & F). congruence.
Qed.

(** ---------------- C32 ---------------- *)
(** The values of a sequence: those of its components, in order; a component without data gives none,
    a tuple gives its components, any other one gives itself. *)
Inductive values_of (T : list ity) : list nat -> list nat -> Prop :=
| vo_nil : values_of T [] []
| vo_unit i t l vs : nth_error T i = Some t -> (t = IInvisible \/ t = IRegular TUnit) -> values_of T l vs -> values_of T (i :: l) vs
| vo_tuple i js l vs : nth_error T i = Some (IRegular (TTuple js)) -> values_of T l vs -> values_of T (i :: l) (js ++ vs)
| vo_one i t l vs : nth_error T i = Some t -> (t = IExternal \/ exists u, t = IRegular u /\ u <> TUnit /\ (forall js, u <> TTuple js)) ->
    values_of T l vs -> values_of T (i :: l) (i :: vs).
Definition known (T : list ity) (i : nat) : Prop := exists t, nth_error T i = Some t /\ t <> IInfer /\ forall r, t <> IRec r.
(** A table of types in which tuples have at least two components, none of them a tuple or without data. *)
Definition flat_table (T : list ity) : Prop := forall i js, nth_error T i = Some (IRegular (TTuple js)) ->
  2 <= length js /\ Forall (fun j => exists t, nth_error T j = Some t /\ (t = IExternal \/ exists u, t = IRegular u /\ u <> TUnit /\ forall ks, u <> TTuple ks)) js.

Lemma value_type_cases t : is_value_type t = true <-> t = IExternal \/ exists u, t = IRegular u /\ u <> TUnit /\ forall ks, u <> TTuple ks.
Proof.
  destruct t as [| | | |u]; cbn; split; intros H; try discriminate; auto; try (destruct H as [H|(v & H & _)]; discriminate).
  - right. exists u. split; [reflexivity|]. destruct u; try discriminate H; split; congruence.
  - destruct H as [H|(v & H & N1 & N2)]; [discriminate|]. injection H as <-. destruct u; try reflexivity; [congruence|destruct (N2 l eq_refl)].
Qed.
Lemma flat_table_flat T : flat_table T -> flat T.
Proof.
  intros H i l Ei. destruct (H i l Ei) as [L F]. split; [exact L|]. eapply Forall_impl; [|exact F]. intros j (t & Et & V). exists t. split; [exact Et|]. apply value_type_cases, V.
Qed.
Lemma values_contrib T l vs : values_of T l vs -> flat_map (contrib T) l = vs.
Proof.
  induction 1 as [|i t l vs Et D _ IH|i js l vs Et _ IH|i t l vs Et D _ IH]; [reflexivity| | |]; cbn [flat_map]; rewrite IH; unfold contrib; rewrite Et.
  - destruct D as [-> | ->]; reflexivity.
  - reflexivity.
  - destruct D as [->|(u & -> & N1 & N2)]; [reflexivity|]. destruct u; try reflexivity; [congruence|destruct (N2 l0 eq_refl)].
Qed.
Theorem C32_sequence_type : forall T l vs, flat_table T -> l <> [] -> Forall (known T) l -> values_of T l vs ->
  reduce_tuple T l =
    match vs with
    | [] => WOk (if forallb (invisible_at T) l then IInvisible else IRegular TUnit)
    | [j] => tget T j
    | _ => WOk (IRegular (TTuple vs))
    end.
Proof.
  intros T l vs FT NE KN V. rewrite (@reduce_tuple_spec T (flat_table_flat FT) l NE); [rewrite (values_contrib V); destruct vs as [|j [|k ks]]; reflexivity|].
  eapply Forall_impl; [|exact KN]. intros i (t & Et & N1 & N2). exists t. split; [exact Et|]. split; [exact N1|]. destruct t; try reflexivity. destruct (N2 r eq_refl).
Qed.
(** [values_of] always has an answer. *)
Theorem C32_values_exist : forall T l, Forall (known T) l -> exists vs, values_of T l vs.
Proof.
  intros T l H. induction H as [|i l (t & Et & N1 & N2) F (vs & IH)]; [exists []; constructor|].
  destruct t as [|r| | |u]; [congruence|destruct (N2 r eq_refl)|exists vs; exact (vo_unit Et (or_introl eq_refl) IH)|exists (i :: vs); exact (vo_one Et (or_introl eq_refl) IH)|].
  destruct u as [| | | |js|]; try (exists (i :: vs); refine (vo_one Et (or_intror _) IH); eexists; split; [reflexivity|split; congruence]).
  - exists vs. exact (vo_unit Et (or_intror eq_refl) IH).
  - exists (js ++ vs). exact (vo_tuple Et IH).
Qed.
(** In the grammar given to the code generator no tuple is nested or has a component without data. *)
Theorem C32_flat_types : forall E fuel G G', well_built G -> type_inference E fuel G = WOk (Some G') ->
  forall i js, ty_of G' i = Some (TTuple js) ->
    2 <= length js /\ Forall (fun j => exists u, ty_of G' j = Some u /\ u <> TUnit /\ forall ks, u <> TTuple ks) js.
Proof. exact typed_flat. Qed.

(** ---------------- C33 ---------------- *)
(** [same T a b] (TypeRules.v): equal types, structurally, any two Rust types being equal (rustc
    compares them).  [choice_type T ts t] (TypeRules.v): all the branches that are not recursive have
    the type [t], or are of an external type; or they are all without data; or all are recursive. *)
Theorem C33_choice_type : forall T fuel ts r, reduce_sum T fuel ts = WOk r ->
  match r with
  | Some t => (forall p, ~ In (RPoly, p) (all_paths ts)) /\ choice_type T ts t
  | None => ~ ((forall p, ~ In (RPoly, p) (all_paths ts)) /\ exists t, choice_type T ts t)
  end.
Proof. exact reduce_sum_spec. Qed.
Theorem C33_duplicate_branch : forall T fuel ts u r r', same T u u -> In u ts ->
  reduce_sum T fuel ts = WOk r -> reduce_sum T fuel (ts ++ [u]) = WOk r' -> r' = r.
Proof. exact reduce_sum_duplicate. Qed.
(** Branches of different Rust types are accepted. *)
Theorem C33_rust_types_refuted : ~ forall T fuel ts t, reduce_sum T fuel ts = WOk (Some t) -> (forall u, In u ts -> exists s, u = IRegular (TRust s)) ->
  forall u, In u ts -> u = t.
Proof.
  intros H. specialize (H [] 1 [IRegular (TRust "u32"); IRegular (TRust "String")] (IRegular (TRust "u32")) eq_refl).
  assert (Q : IRegular (TRust "String") = IRegular (TRust "u32")); [|discriminate]. apply H; [|right; left; reflexivity].
  intros u [<-|[<-|[]]]; eauto.
Qed.

(** ---------------- C34 ---------------- *)
(** The types after the two passes, when they report no error. *)
Definition inferred (E : tenv) (fuel : nat) (G : grammar) (T : list ity) : Prop := exists st1 st2 st3,
  surface (igrammar G) E fuel (mkT (itable G E) false) = WOk st1 /\ terr st1 = false /\ reduce_all_rec (igrammar G) st1 = WOk st2 /\
  depth (igrammar G) E fuel fuel st2 = WOk st3 /\ terr st3 = false /\ tys st3 = T.
Theorem C34_recursive_types_removed : forall E fuel G st1, well_built G -> surface (igrammar G) E fuel (mkT (itable G E) false) = WOk st1 ->
  exists st2, reduce_all_rec (igrammar G) st1 = WOk st2.
Proof. exact recs_removed. Qed.
Theorem C34_all_types_resolved : forall E fuel G T, well_built G -> inferred E fuel G T ->
  length T = S (length (exprs G)) /\ (forall i t, nth_error T i = Some t -> t <> IInfer /\ forall r, t <> IRec r)
  /\ exists out, reduce_finals T = WOk out.
Proof.
  intros E fuel G T WB (st1 & st2 & st3 & H1 & _ & H2 & H3 & E3 & <-). destruct (inferred_settled WB H1 H2 H3 E3) as [L S1]. split; [exact L|]. split.
  - intros i t Et. specialize (S1 i t Et). destruct t; try discriminate; split; congruence.
  - exact (reduce_finals_ok S1).
Qed.
Theorem C34_no_unknown_type : forall E fuel G G', well_built G -> type_inference E fuel G = WOk (Some G') ->
  exists T, inferred E fuel G T /\ reduce_finals T = WOk (types G') /\
    forall rl, In rl (rules G) -> exists t, nth_error T (rexpr rl) = Some t /\ ~ mentions_external T t.
Proof.
  intros E fuel G G' WB H. destruct (infer_inv H) as (st1 & st2 & st3 & out & H1 & E1 & H2 & H3 & E3 & H4 & H5 & ->).
  exists (tys st3). split; [exists st1, st2, st3; auto 10|]. split; [exact H4|]. exact (rules_have_type_spec H5).
Qed.

(** ---------------- C44 ---------------- *)
(** [c = "a" a / .]  and  [a = "b" a / "c" c], in both orders. *)
Definition caG (rs : list rule) : grammar := mkG rs
  [EStr [97%N]; ENT "a"; ESeq [0; 1]; EAny; EAlt [2; 3]; EStr [98%N]; ENT "a"; ESeq [5; 6]; EStr [99%N]; ENT "c"; ESeq [8; 9]; EAlt [7; 10]] [].
Definition ca1 : grammar := caG [mkRule "c" 4; mkRule "a" 11].
Definition ca2 : grammar := caG [mkRule "a" 11; mkRule "c" 4].
Theorem C44_verdict_refuted : well_built ca1 /\ accepted ca1 /\ type_inference E0 50 ca1 = WPanic
  /\ well_built ca2 /\ accepted ca2 /\ exists G', type_inference E0 50 ca2 = WOk (Some G').
Proof.
  repeat split; try (apply well_builtb_ok; vm_compute; reflexivity); try (exists 50, 20; vm_compute; reflexivity); try (vm_compute; reflexivity).
  eexists. vm_compute. reflexivity.
Qed.

(** It always stops: with the fuel of one path through the rules it answers or panics. *)
Theorem C44_terminates : forall E fuel G, well_built G -> S (length (exprs G)) < cmp_fuel E -> (length (rules G) + 1) * S (length (exprs G)) <= fuel ->
  type_inference E fuel G <> WLoop.
Proof. intros E fuel G WB HC. apply inference_stops; assumption. Qed.

(** It answers, in every order of the rules, when no rule depends for its type on itself through another
    rule.  Missing: the grammars with mutually recursive rules, where the claim fails. *)
Lemma well_built_reordered G rs : well_built G -> Permutation (rules G) rs -> well_built (mkG rs (exprs G) (types G)).
Proof.
  intros [H1 H2 H3 H4 H5 H6 H7 H8 H9 H10] P. split; cbn [exprs rules]; auto.
  - eapply Permutation_trans; [|exact H2]. apply Permutation_app_tail, Permutation_map, Permutation_sym, P.
  - eapply Permutation_NoDup; [apply Permutation_map, P|exact H3].
  - intros ->. apply Permutation_sym, Permutation_nil in P. exact (H4 P).
  - intros i id Ee. destruct (H5 i id Ee) as (rl & F). destruct (find_rule_name F) as [N I1]. unfold find_rule.
    destruct (find (fun r => String.eqb (rname r) id) rs) as [x|] eqn:Q; [exists x; exact Q|]. pose proof (find_none _ _ Q rl (Permutation_in _ P I1)) as X. cbv beta in X.
    rewrite N, String.eqb_refl in X. discriminate.
Qed.
Lemma layered_reordered G rs rk self bad : layered G rk self bad -> Permutation (rules G) rs -> layered (mkG rs (exprs G) (types G)) rk self bad.
Proof.
  intros HL P rl i id Irl NB R Ee. apply (HL rl i id (Permutation_in _ (Permutation_sym P) Irl) NB); [|exact Ee].
  clear - R. induction R as [x|x e c y Ex Ic R IH]; [constructor|exact (@sp_child G x e c y Ex Ic IH)].
Qed.
Theorem C44_verdict_partial : forall E fuel G rk self, well_built G -> layered G rk self (fun _ => false) ->
  S (length (exprs G)) < cmp_fuel E -> (length (rules G) + 1) * S (length (exprs G)) <= fuel ->
  forall rs, Permutation (rules G) rs -> exists r, type_inference E fuel (mkG rs (exprs G) (types G)) = WOk r.
Proof.
  intros E fuel G rk self WB HL HC LF rs P. apply (@inference_answers (mkG rs (exprs G) (types G)) E (well_built_reordered WB P) HC fuel rk self (layered_reordered HL P)).
  cbn [rules exprs]. rewrite <- (Permutation_length P). exact LF.
Qed.

(** The type of a rule may depend on the order of the rules:  [b = "x" c / "y"],  [c = "z" b],  [a = c .]: the type of [a] is
    [char] when it comes first, and [()] when it comes last. *)
Definition orderG (rs : list rule) : grammar := mkG rs
  [EStr [120%N]; ENT "c"; ESeq [0; 1]; EStr [121%N]; EAlt [2; 3]; EStr [122%N]; ENT "b"; ESeq [5; 6]; ENT "c"; EAny; ESeq [8; 9]] [].
Definition order_rules : list rule := [mkRule "b" 4; mkRule "c" 7; mkRule "a" 10].
Theorem C44_types_order_refuted : ~ forall E fuel G rs G1 G2, well_built G -> accepted G -> Permutation (rules G) rs ->
  type_inference E fuel G = WOk (Some G1) -> type_inference E fuel (mkG rs (exprs G) (types G)) = WOk (Some G2) ->
  forall rl, In rl rs -> ty_of G1 (rexpr rl) = ty_of G2 (rexpr rl).
Proof.
  intros H. assert (P : Permutation order_rules [mkRule "a" 10; mkRule "b" 4; mkRule "c" 7]).
  { apply Permutation_sym. change order_rules with ([mkRule "b" 4; mkRule "c" 7] ++ [mkRule "a" 10]). apply Permutation_cons_append. }
  assert (T1 : exists G1, type_inference E0 100 (orderG order_rules) = WOk (Some G1) /\ ty_of G1 10 = Some TUnit) by (eexists; split; [vm_compute; reflexivity|reflexivity]).
  assert (T2 : exists G2, type_inference E0 100 (orderG [mkRule "a" 10; mkRule "b" 4; mkRule "c" 7]) = WOk (Some G2) /\ ty_of G2 10 = Some TAtom) by (eexists; split; [vm_compute; reflexivity|reflexivity]).
  destruct T1 as (G1 & T1 & Y1), T2 as (G2 & T2 & Y2).
  pose proof (H E0 100 (orderG order_rules) [mkRule "a" 10; mkRule "b" 4; mkRule "c" 7] G1 G2 ltac:(apply well_builtb_ok; vm_compute; reflexivity) ltac:(exists 50, 20; vm_compute; reflexivity) P T1 T2
    (mkRule "a" 10) (or_introl eq_refl)) as Q. cbn [rexpr] in Q. congruence.
Qed.

(** ---------------- the hypotheses are met ---------------- *)
Definition sumS : grammar := mkG (rules sumG) (exprs sumG) [].
Example C29_case : well_built sumS /\ type_inference E0 50 sumS = WOk (Some (mkG (rules sumG) (exprs sumG ++ [ESpan 0]) (types sumG ++ [TRust "SP"])))
  /\ layered sumS (fun id => if String.eqb id "sum" then 1 else 0) (fun _ => False) (fun _ => false).
Proof.
  split; [apply well_builtb_ok; vm_compute; reflexivity|]. split; [vm_compute; reflexivity|].
  intros rl i id Irl _ R Ee. destruct Irl as [<-|[<-|[]]]; cbn [rexpr rname] in *.
  - left. split; [|reflexivity]. assert (X : id = "num"); [|subst id; vm_compute; lia].
    do 9 (destruct i as [|i]; [cbn in Ee; try discriminate Ee; try (injection Ee as <-; reflexivity)|]). destruct i; discriminate Ee.
  - exfalso. inversion R as [x|x e c y Ex Ic R']; subst; [discriminate Ee|]. cbn in Ex. injection Ex as <-. destruct Ic.
Qed.
(** A rule without data that calls itself:  [u = "x" u / "y"],  [w = . u]. *)
Definition recG : grammar := mkG [mkRule "w" 7; mkRule "u" 4]
  [EStr [120%N]; ENT "u"; ESeq [0; 1]; EStr [121%N]; EAlt [2; 3]; EAny; ENT "u"; ESeq [5; 6]] [].
Example C29_case_recursive : well_built recG /\ (exists G', type_inference E0 50 recG = WOk (Some G') /\ is_unit G' 4 = true /\ is_unit G' 7 = false)
  /\ layered recG (fun id => if String.eqb id "w" then 1 else 0) (eq "u") (fun _ => false).
Proof.
  split; [apply well_builtb_ok; vm_compute; reflexivity|]. split; [eexists; split; [vm_compute; reflexivity|split; reflexivity]|].
  intros rl i id Irl _ R Ee. assert (X : id = "u").
  { do 8 (destruct i as [|i]; [cbn in Ee; try discriminate Ee; try (injection Ee as <-; reflexivity)|]). destruct i; discriminate Ee. }
  subst id. destruct Irl as [<-|[<-|[]]]; cbn [rexpr rname]; [left; split; [vm_compute; lia|reflexivity]|right; split; reflexivity].
Qed.
(** A rule with data that calls itself, from tests/grammars/typing.rs:  [ra = "a" ra / "b" .]. *)
Definition rlG : grammar := mkG [mkRule "ra" 6] [EStr [97%N]; ENT "ra"; ESeq [0; 1]; EStr [98%N]; EAny; ESeq [3; 4]; EAlt [2; 5]] [].
Lemma calls_leaf G id c e : expr_of G c = Some e -> visits e = [] -> e <> ENT id -> ~ calls G id c.
Proof. intros Ec V N (j & R & Ej). inversion R as [x|x e' d y Ex Id R']; subst; [congruence|]. rewrite Ec in Ex. injection Ex as <-. rewrite V in Id. destruct Id. Qed.
Example C29_case_linear : well_built rlG /\ layered rlG (fun _ => 0) (eq "ra") (fun _ => false) /\
  exists G', type_inference E0 50 rlG = WOk (Some G') /\ rec_ok rlG G' (eq "ra") (fun _ => false) /\ is_unit G' 6 = false.
Proof.
  split; [apply well_builtb_ok; vm_compute; reflexivity|]. split.
  - intros rl i id Irl _ R Ee. right. destruct Irl as [<-|[]]. cbn [rname].
    assert (X : id = "ra"); [|subst id; split; reflexivity].
    do 7 (destruct i as [|i]; [cbn in Ee; try discriminate Ee; try (injection Ee as <-; reflexivity)|]). destruct i; discriminate Ee.
  - eexists. split; [vm_compute; reflexivity|]. split; [|reflexivity]. intros rl Irl. destruct Irl as [<-|[]]. right. split; [reflexivity|]. intros _. cbn [rname rexpr]. split.
    + intros rl i l Irl _ R Ei p q c d Ep Eq Cc Cd. assert (D : l = [0; 1] \/ l = [3; 4]).
      { do 7 (destruct i as [|i]; [cbn in Ei; try discriminate Ei; try (injection Ei as <-; auto)|]). destruct i; discriminate Ei. }
      assert (L1 : forall k, k = 0 \/ k = 3 \/ k = 4 -> ~ calls rlG "ra" k) by (intros k [->|[->| ->]]; (eapply calls_leaf; [reflexivity|reflexivity|discriminate])).
      destruct D as [-> | ->].
      * destruct p as [|[|p]]; [|destruct q as [|[|q]]; [|reflexivity|destruct q; discriminate Eq]|destruct p; discriminate Ep].
        -- injection Ep as <-. destruct (L1 0 ltac:(auto) Cc).
        -- injection Eq as <-. destruct (L1 0 ltac:(auto) Cd).
      * exfalso. assert (c = 3 \/ c = 4) by (apply nth_error_In in Ep; destruct Ep as [<-|[<-|[]]]; auto). exact (L1 c ltac:(tauto) Cc).
    + intros i l c Ei _ _ _. do 7 (destruct i as [|i]; [cbn in Ei; try discriminate Ei; try reflexivity|]). destruct i; discriminate Ei.
Qed.
(** [. "x" (. .)]: the values are those of [.], and the two of the nested sequence. *)
Example C32_case : let T := [IRegular TAtom; IInvisible; IRegular TAtom; IRegular TAtom; IRegular (TTuple [2; 3])] in
  flat_table T /\ Forall (known T) [0; 1; 4] /\ values_of T [0; 1; 4] [0; 2; 3] /\ reduce_tuple T [0; 1; 4] = WOk (IRegular (TTuple [0; 2; 3])).
Proof.
  intros T. assert (A : forall u, u = TAtom -> IRegular u = IExternal \/ exists v, IRegular u = IRegular v /\ v <> TUnit /\ forall ks, v <> TTuple ks).
  { intros u ->. right. exists TAtom. split; [reflexivity|split; congruence]. }
  split; [|split; [|split; [|reflexivity]]].
  - intros i js Q. do 4 (destruct i as [|i]; [discriminate Q|]). destruct i as [|i]; [|cbn in Q; destruct i; discriminate Q].
    cbn in Q. injection Q as <-. split; [cbn; lia|]. constructor; [|constructor; [|constructor]]; eexists; (split; [reflexivity|apply A; reflexivity]).
  - repeat constructor; eexists; (split; [reflexivity|split; congruence]).
  - apply vo_one with (t := IRegular TAtom); [reflexivity|apply A; reflexivity|]. apply vo_unit with (t := IInvisible); [reflexivity|auto|].
    apply (@vo_tuple T 4 [2; 3] [] []); [reflexivity|constructor].
Qed.
Example C33_case : reduce_sum [] 3 [IRec [(RUnit, ["r"])]; IRegular TAtom; IExternal; IRegular TAtom] = WOk (Some (IRegular TAtom))
  /\ reduce_sum [] 3 [IRegular TAtom; IInvisible] = WOk None.
Proof. split; reflexivity. Qed.
Example C34_case : exists T, inferred E0 50 sumS T.
Proof. do 4 eexists. repeat (split; [vm_compute; reflexivity|]). reflexivity. Qed.

(** A grammar that calls itself and one that does not, in both orders. *)
Example C44_case : (length (rules recG) + 1) * S (length (exprs recG)) <= 50 /\ S (length (exprs recG)) < cmp_fuel E0
  /\ exists rk self, layered recG rk self (fun _ => false).
Proof. split; [cbn; lia|split; [cbn; lia|]]. destruct C29_case_recursive as (_ & _ & L). eauto. Qed.

Print Assumptions C29_recognizers_generated.
Print Assumptions C29_codegen_no_panic_partial.
Print Assumptions C29_codegen_no_panic_refuted.
Print Assumptions C32_sequence_type.
Print Assumptions C32_values_exist.
Print Assumptions C32_flat_types.
Print Assumptions C33_choice_type.
Print Assumptions C33_duplicate_branch.
Print Assumptions C33_rust_types_refuted.
Print Assumptions C34_recursive_types_removed.
Print Assumptions C34_all_types_resolved.
Print Assumptions C34_no_unknown_type.
Print Assumptions C44_verdict_refuted.
Print Assumptions C44_terminates.
Print Assumptions C44_verdict_partial.
Print Assumptions C44_types_order_refuted.
