(** Property theorems on the errors on semantic actions without a value (C65).

    The specification: [valueless], [seen], [opened], [within] (TreeWf.v). *)
From Coq Require Import Ascii.
From Verif Require Import Base Utf8 Stream ParseState RuntimeFacts Grammar PegSpec Target Compile TargetFacts ScopeFacts
  CompileShape EvalRules CompileCorrect ScopeGen GenTotal PegFacts Running WellFormed WfFacts WfSound WfSyntax WfTerm WfFuel PegRun Behave Values CharClass
  Analysis AnalysisFacts PropertiesWf PropertiesPeg PropertiesAnalysis Typing TypeRules SurfaceFacts RefFacts DepthFacts TypingSound TypingFit TypingAnswer GenAgree TypingFuel TypingTop TypingVerdict
  PropertiesTyping SumGrammar Front FrontFacts FrontSpec FrontSound FrontRound FrontGrammar PropertiesFront Agree TreeSpec TreeFacts Literals Pipeline MiddleFuel PropertiesMain RType Oak OakFacts PropertiesOak PropertiesRustc PropertiesModule
  TreeWf PropertiesVerdict TreeValues TreeEp PropertiesSource TreeKinds KindFacts KindTrees TreeNames FrontPrint PropertiesParsers PropertiesScope
  TypeSpec TypeDen TypeSurface TypeDepth TypeExact Warnings PropertiesTypes PropertiesWarnings PropertiesRules PropertiesSignature UnitActions UnitDepth UnitTop ActionCalls.
Set Implicit Arguments. Unset Strict Implicit.
Open Scope string_scope. Open Scope nat_scope. Open Scope list_scope.

(** ---------------- the errors of one run of the macro ---------------- *)
Definition action_name (G : grammar) (i : nat) : string := match expr_of G i with Some (EAct _ _ (ActPath [id])) => id | _ => "" end.
(** lib.rs:34-42, middle/mod.rs:28-36, typing/mod.rs:29-32: the same run as [oak] (Oak.v).  The errors of typing/ast.rs:53-58,
    in the order of their emission: the expression, by its place in the arena, and the name of its action. *)
Definition oak_units rust_type rust_item return_type generics (fuel : nat) (ts : list tok) : wres (list (nat * string)) :=
  match parse_grammar rust_type rust_item ts with
  | FErr => WOk []
  | FLoop => WLoop
  | FOk fg =>
    wbind (middle fuel fuel fg) (fun r =>
    match r with
    | None => WOk []
    | Some g => wbind (unit_notes (env_of return_type generics g fuel) fuel (shape g)) (fun l => WOk (map (fun i => (i, action_name (shape g) i)) l))
    end)
  end.

(** ---------------- specification ---------------- *)
(** The function is written in the grammar, without a return type or with [()]. *)
Definition valueless (return_type : string -> option string) (bs : list block) (f : string) : Prop :=
  returned return_type (functions (block_items bs)) f = Some None \/ returned return_type (functions (block_items bs)) f = Some (Some "()").
(** The type of [t] is made with that of [u]: neither predicates nor the operands of actions, typed expressions and ranges. *)
Inductive seen : tree -> tree -> Prop :=
| se_self t : seen t t
| se_seq l t u : In t l -> seen t u -> seen (XSeq l) u
| se_alt l t u : In t l -> seen t u -> seen (XAlt l) u
| se_star t u : seen t u -> seen (XStar t) u
| se_plus t u : seen t u -> seen (XPlus t) u
| se_opt t u : seen t u -> seen (XOpt t) u
| se_span t u : seen t u -> seen (XSpan t) u.
(** Operands that are typed for themselves. *)
Inductive opened : tree -> tree -> Prop :=
| op_act t b p : opened (XAct t b p) t
| op_asc t ty : opened (XAsc t ty) t
| op_range t : opened (XRange t) t.

(** ---------------- facts ---------------- *)
Section Read.
Variable G : grammar.
Variable rs : list (string * tree).
Local Notation stored := (stored G rs).

Lemma two_in (A B : Type) (R : A -> B -> Prop) l m : Forall2 R l m -> (forall a, In a l -> exists b, In b m /\ R a b) /\ (forall b, In b m -> exists a, In a l /\ R a b).
Proof.
  induction 1 as [|a b l m Q _ [I1 I2]]; [split; intros x []|]. split; (intros x [<-|I0]; [eexists; split; [left; reflexivity|exact Q]|]).
  - destruct (I1 x I0) as (y & Y & RY). exists y. split; [right; exact Y|exact RY].
  - destruct (I2 x I0) as (y & Y & RY). exists y. split; [right; exact Y|exact RY].
Qed.
Lemma spos_seen x y j b f : spos G x y -> expr_of G y = Some (EAct j b f) -> forall t, stored x t -> exists u p, f = ActPath p /\ seen t (XAct u b p) /\ stored y (XAct u b p).
Proof.
  intros SP Ey. induction SP as [x|x e c y Ex Ic SP IH]; intros t S0.
  - inversion S0; subst; try congruence. assert (Q : EAct j0 b0 (ActPath p) = EAct j b f) by congruence. injection Q as <- <- <-. exists t0, p. split; [reflexivity|]. split; [constructor|exact S0].
  - specialize (IH Ey). assert (MANY : forall js l, Forall2 stored js l -> In c js -> exists u0 u p, In u0 l /\ f = ActPath p /\ seen u0 (XAct u b p) /\ stored y (XAct u b p)).
    { intros js l F I0. destruct (proj1 (two_in F) c I0) as (u0 & I1 & S1). destruct (IH u0 S1) as (u & p & Q & SE & S2). exists u0, u, p. auto. }
    inversion S0; subst;
      try (match goal with E1 : expr_of G x = Some ?e1, E2 : expr_of G x = Some ?e2 |- _ => assert (XQ : e1 = e2) by congruence end; subst e; cbn [visits] in Ic; try (destruct Ic; fail); try (destruct Ic as [<-|[]])).
    + destruct (MANY _ _ H0 Ic) as (u0 & u & p & I0 & Q & SE & S2). exists u, p. split; [exact Q|]. split; [exact (se_seq I0 SE)|exact S2].
    + destruct (MANY _ _ H0 Ic) as (u0 & u & p & I0 & Q & SE & S2). exists u, p. split; [exact Q|]. split; [exact (se_alt I0 SE)|exact S2].
    + destruct (IH _ H0) as (u & p & Q & SE & S2). exists u, p. split; [exact Q|]. split; [exact (se_star SE)|exact S2].
    + destruct (IH _ H0) as (u & p & Q & SE & S2). exists u, p. split; [exact Q|]. split; [exact (se_plus SE)|exact S2].
    + destruct (IH _ H0) as (u & p & Q & SE & S2). exists u, p. split; [exact Q|]. split; [exact (se_opt SE)|exact S2].
    + destruct (IH _ H0) as (u & p & Q & SE & S2). exists u, p. split; [exact Q|]. split; [exact (se_span SE)|exact S2].
    + exfalso. inversion SP as [|? e' c' ? Ec Ic' _]; subst; [congruence|]. assert (e' = EAsc j0 (IRegular TUnit)) as -> by congruence. destruct Ic'.
Qed.
Lemma seen_spos t u : seen t u -> forall x, stored x t -> exists y, spos G x y /\ stored y u.
Proof.
  induction 1 as [t|l t u I0 SE IH|l t u I0 SE IH|t u SE IH|t u SE IH|t u SE IH|t u SE IH]; intros x S0; [exists x; split; [constructor|exact S0]|..]; inversion S0; subst.
  1,2: match goal with F : Forall2 _ _ _ |- _ => destruct (proj2 (two_in F) _ I0) as (c & Ic & Sc) end; destruct (IH c Sc) as (y & SP & Sy); exists y; (split; [|exact Sy]); eapply sp_child; [eassumption|exact Ic|exact SP].
  all: match goal with IH : forall x, stored x _ -> _, Sj : stored _ _ |- _ => destruct (IH _ Sj) as (y & SP & Sy) end; exists y; (split; [|exact Sy]); eapply sp_child; [eassumption|left; reflexivity|exact SP].
Qed.
(** A part of the arena below a tree: a part of the tree, or what stands below a range (ast.rs:86-100). *)
Definition part_of (a : nat) (t : tree) : Prop :=
  (exists u, within t u /\ stored a u) \/ (exists j u, expr_of G a = Some (EAsc j (IRegular TUnit)) /\ stored j u /\ within t (XRange u)).
Lemma part_up a t u : In u (operands t) -> part_of a u -> part_of a t.
Proof. intros Iu [(v & W & Sv)|(j & v & E1 & Sj & W)]; [left; exists v; split; [exact (wi_step Iu W)|exact Sv]|right; exists j, v; split; [exact E1|split; [exact Sj|exact (wi_step Iu W)]]]. Qed.
Lemma sub_within x a : reaches (exprs G) x a -> (forall t, stored x t -> part_of a t) /\ (forall j t, expr_of G x = Some (EAsc j (IRegular TUnit)) -> stored j t -> a = x \/ part_of a t).
Proof.
  induction 1 as [x|x e c a Ex Ic R [IH IH2]]; [split; [intros t S0; left; exists t; split; [constructor|exact S0]|auto]|]. split.
  2: { intros j t Ej S0. right. apply IH. assert (e = EAsc j (IRegular TUnit)) as -> by (unfold expr_of in Ej; congruence). destruct Ic as [<-|[]]. exact S0. }
  intros t S0.
  assert (DOWN : forall u, In u (operands t) -> stored c u -> part_of a t) by (intros u Iu Su; exact (part_up Iu (IH u Su))).
  assert (MANY : forall js, Forall2 stored js (operands t) -> In c js -> part_of a t).
  { intros js F I0. destruct (proj1 (two_in F) c I0) as (u & Iu & Su). exact (DOWN u Iu Su). }
  inversion S0; subst;
    (match goal with E1 : expr_of G x = Some ?e1 |- _ => assert (XQ : e = e1) by (unfold expr_of in E1; congruence) end; subst e; cbn [children] in Ic; try (destruct Ic; fail); try (destruct Ic as [<-|[]])).
  1,2: eapply MANY; eassumption.
  all: try (eapply DOWN; [left; reflexivity|eassumption]).
  match goal with E2 : expr_of G _ = Some (EAsc _ _), Sj : stored _ _ |- _ => destruct (IH2 _ _ E2 Sj) as [->|P]; [right; eexists _, _; split; [exact E2|split; [exact Sj|constructor]]|exact (@part_up a (XRange _) _ (or_introl eq_refl) P)] end.
Qed.
Lemma within_sub t u : within t u -> forall x, stored x t -> exists a, reaches (exprs G) x a /\ stored a u.
Proof.
  induction 1 as [t|t v u Iv W IH]; intros x S0; [exists x; split; [constructor|exact S0]|].
  inversion S0; subst; cbn [operands] in Iv; try (destruct Iv; fail); try (destruct Iv as [<-|[]]).
  1,2: match goal with F : Forall2 _ _ _ |- _ => destruct (proj2 (two_in F) v Iv) as (c & Ic & Sc) end; destruct (IH c Sc) as (a & R & Sa); exists a; (split; [|exact Sa]); eapply rc_child; [eassumption|exact Ic|exact R].
  all: match goal with Sj : stored ?j _ |- _ => destruct (IH j Sj) as (a & R & Sa) end; exists a; (split; [|exact Sa]).
  all: try (eapply rc_child; [eassumption|left; reflexivity|exact R]).
  eapply rc_child; [eassumption|left; reflexivity|]. eapply rc_child; [eassumption|left; reflexivity|exact R].
Qed.
End Read.
Lemma unit_fn_spec E f : unit_fn E f = true <-> exists id, f = ActPath [id] /\ (ret_of E id = Some None \/ ret_of E id = Some (Some "()")).
Proof.
  unfold unit_fn. split.
  - destruct f as [[|id [|]]|]; try discriminate. intros H. exists id. split; [reflexivity|]. destruct (ret_of E id) as [[t|]|]; try discriminate; [right|left; reflexivity]. apply String.eqb_eq in H. congruence.
  - intros (id & -> & [-> | ->]); reflexivity.
Qed.
(** The report of inference, on the grammar given to it. *)
Lemma inference_notes G E fuel G' : well_built G -> type_inference E fuel G = WOk (Some G') ->
  exists l, unit_notes E fuel G = WOk l /\ NoDup l /\
    (forall x, In x l -> unit_act (igrammar G) E x /\ (rooted (igrammar G) x \/ exists rl, In rl (rules G) /\ from (igrammar G) (rexpr rl) x)) /\
    (forall x, unit_act (igrammar G) E x -> (rooted (igrammar G) x \/ exists a j b f, a < length (exprs G) /\ expr_of (igrammar G) a = Some (EAct j b f) /\ spos (igrammar G) j x) -> In x l).
Proof.
  intros WB TI. destruct (infer_inv TI) as (st1 & st2 & st3 & out & H1 & E1 & H2 & H3 & _). pose proof (all_once WB) as ND.
  destruct (@notes_exact (igrammar G) E (own G) (ig_typable WB) (ig_owned WB) (ig_forest WB)) with (fuel := fuel) (T0 := itable G E) (s1 := st1) (s2 := st2) (s3 := st3) as (l & A & B & C & D); try assumption.
  - intros i e Li Ee. rewrite ig_last in Li. rewrite ig_low in Ee by exact Li. apply NoDup_app_r in ND. unfold expr_of in Ee. exact (NoDup_flat_map_one ND (nth_error_In _ _ Ee)).
  - exact (NoDup_app_l ND).
  - exact (ig_blank G E).
  - exists l. split; [exact A|]. split; [exact B|]. split; [exact C|]. intros x U [R|(a & j & b & f & La & Q)]; apply (D x U); [left; exact R|right]. exists a, j, b, f. rewrite ig_last. split; [exact La|exact Q].
Qed.

(** The errors on actions of an expanded source, whatever the fuel beyond some.  Each expression is reported at most once.
    Only actions on a function of the grammar without a return type, or with [()], are: those whose type is that of a rule
    or of the operand of an action, of a typed expression or of a range.  Each such action of a rule or of the operand of an
    action is. *)
Theorem C65_units : forall rust_type rust_item return_type generics, reads rust_type -> reads rust_item ->
  forall fuel ts m, oak rust_type rust_item return_type generics fuel ts = WOk (Some m) ->
  forall attrs bs, read_as rust_type rust_item ts attrs bs ->
  exists l, (exists N, forall fuel', N <= fuel' -> oak_units rust_type rust_item return_type generics fuel' ts = WOk l) /\ NoDup (map fst l) /\
    (forall i f, In (i, f) l -> valueless return_type bs f /\
       exists n e t b, In (n, e) (block_rules bs) /\ (seen e (XAct t b [f]) \/ exists x y, within e x /\ opened x y /\ seen y (XAct t b [f]))) /\
    (forall n e t b f, In (n, e) (block_rules bs) -> valueless return_type bs f ->
       (seen e (XAct t b [f]) \/ exists y b' p, within e (XAct y b' p) /\ seen y (XAct t b [f])) -> exists i, In (i, f) l).
Proof.
  intros rt ri rty gen RT RI fuel ts m H attrs bs RD. destruct (source_env RT RI H RD) as (fg & g & G' & PA & MA & RA & TI & _ & RE). destruct (oak_inv H) as (fg' & g' & G2 & PA' & M & _).
  assert (fg' = fg) as -> by congruence. assert (g' = g) as -> by (destruct MA as (N0 & M0); specialize (M0 (N0 + fuel) (N0 + fuel) ltac:(lia) ltac:(lia)); rewrite (@middle_more_fuel fuel (N0 + fuel) fuel (N0 + fuel) fg ltac:(lia) ltac:(lia)) in M0 by congruence; congruence).
  pose proof (C38_well_built PA MA) as WB. set (G := shape g) in *. set (E := env_of rty gen g fuel) in *.
  destruct (inference_notes WB TI) as (l & UN & ND & SO & CO). pose proof (source_stored PA MA RA) as SS. fold G in SS.
  assert (EXT : forall i e, expr_of G i = Some e -> expr_of (igrammar G) i = Some e).
  { intros i e Ee. rewrite ig_low; [exact Ee|]. apply nth_error_Some. unfold expr_of in Ee. congruence. }
  assert (RULE : forall rl, In rl (rules G) -> exists e, In (rname rl, e) (block_rules bs) /\ stored (igrammar G) (block_rules bs) (rexpr rl) e).
  { intros rl Irl. destruct (rule_source SS Irl) as (e & Ie & Se). exists e. split; [exact Ie|exact (stored_ext EXT Se)]. }
  assert (BACK : forall n e, In (n, e) (block_rules bs) -> exists rl, In rl (rules G) /\ rname rl = n /\ stored (igrammar G) (block_rules bs) (rexpr rl) e).
  { intros n e Ie. destruct (proj2 (two_in SS) (n, e) Ie) as (rl & Irl & RN & Se). exists rl. split; [exact Irl|]. split; [exact RN|exact (stored_ext EXT Se)]. }
  assert (VL : forall f, valueless rty bs f <-> unit_fn E (ActPath [f]) = true).
  { intros f. rewrite unit_fn_spec. unfold valueless. rewrite <- RE. split; [intros Q; exists f; auto|intros (id & Q & V); injection Q as <-; exact V]. }
  assert (LOW : forall i e, expr_of (igrammar G) i = Some e -> e <> ESpan 0 -> i < length (exprs G)).
  { intros i e Ei N. assert (L : i < length (exprs (igrammar G))) by (apply nth_error_Some; unfold expr_of in Ei; congruence). rewrite ig_len in L. destruct (Nat.eq_dec i (length (exprs G))) as [->|D]; [|lia]. rewrite ig_top in Ei. congruence. }
  assert (NAME : forall x j b f, expr_of (igrammar G) x = Some (EAct j b (ActPath [f])) -> action_name G x = f).
  { intros x j b f Ex. unfold action_name. rewrite <- ig_low by exact (LOW x _ Ex ltac:(discriminate)). rewrite Ex. reflexivity. }
  exists (map (fun i => (i, action_name G i)) l). split; [|split; [|split]].
  - exists fuel. intros k L. unfold oak_units. rewrite PA. rewrite (@middle_more_fuel fuel k fuel k fg L L) by congruence. rewrite M. cbn [wbind].
    assert (UK : unit_notes (env_of rty gen g k) k G = WOk l) by (rewrite <- UN; refine (@unit_notes_more E (env_of rty gen g k) fuel k G eq_refl eq_refl eq_refl L L _); congruence).
    unfold G in UK. rewrite UK. reflexivity.
  - rewrite map_map. cbn [fst]. rewrite map_id. exact ND.
  - intros i f I0. apply in_map_iff in I0. destruct I0 as (x & Q & Ix). injection Q as -> Qf. destruct (SO i Ix) as ((j & b & a & Ei & Uf) & W).
    destruct (proj1 (unit_fn_spec E a) Uf) as (id & -> & V). rewrite (NAME _ _ _ _ Ei) in Qf. subst id. split; [apply VL; exact Uf|].
    destruct W as [(rl & Irl & SP)|(rl & Irl & (y & e0 & c & R & Ey & K & SP))]; destruct (RULE rl Irl) as (e & Ie & Se).
    + destruct (spos_seen SP Ei Se) as (u & p & Q & SE & _). injection Q as <-. exists (rname rl), e, u, b. auto.
    + assert (OP : exists x u, within e x /\ opened x u /\ stored (igrammar G) (block_rules bs) c u).
      { destruct (proj1 (sub_within (block_rules bs) R) e Se) as [(u & WI & Su)|(c' & u & E1 & Su & WI)].
        - destruct K as [(b0 & f0 & ->)|(t0 & ->)]; inversion Su; subst; try congruence.
          + match goal with E1 : expr_of _ y = Some ?a1 |- _ => assert (XQ : EAct c b0 f0 = a1) by congruence; injection XQ as <- <- -> end. eexists _, _. split; [exact WI|]. split; [constructor|assumption].
          + match goal with E1 : expr_of _ y = Some ?a1 |- _ => assert (XQ : EAsc c t0 = a1) by congruence; injection XQ as <- <- end. eexists _, _. split; [exact WI|]. split; [constructor|assumption].
        - destruct K as [(b0 & f0 & ->)|(t0 & ->)]; [congruence|]. assert (XQ : EAsc c t0 = EAsc c' (IRegular TUnit)) by congruence. injection XQ as <- _. eexists _, _. split; [exact WI|]. split; [constructor|exact Su]. }
      destruct OP as (x & u & WI & OX & Su). destruct (spos_seen SP Ei Su) as (v & p & Q & SE & _). injection Q as <-. exists (rname rl), e, v, b. split; [exact Ie|]. right. exists x, u. auto.
  - intros n e t b f Ie V W. destruct (BACK n e Ie) as (rl & Irl & _ & Se).
    assert (PLACE : forall x, stored (igrammar G) (block_rules bs) x (XAct t b [f]) -> (exists j, expr_of (igrammar G) x = Some (EAct j b (ActPath [f]))) /\ unit_act (igrammar G) E x).
    { intros x Sx. inversion Sx; subst. split; [eauto|]. exists j, b, (ActPath [f]). split; [assumption|apply VL; exact V]. }
    assert (DONE : forall x, In x l -> stored (igrammar G) (block_rules bs) x (XAct t b [f]) -> exists i, In (i, f) (map (fun i => (i, action_name G i)) l)).
    { intros x Ix Sx. exists x. apply in_map_iff. exists x. split; [|exact Ix]. destruct (proj1 (PLACE x Sx)) as (j & Ex). rewrite (NAME _ _ _ _ Ex). reflexivity. }
    destruct W as [SE|(y & b' & p & WI & SE)].
    + destruct (seen_spos SE Se) as (x & SP & Sx). apply (DONE x); [|exact Sx]. apply (CO x (proj2 (PLACE x Sx))). left. exists rl. split; [exact Irl|exact SP].
    + destruct (within_sub WI Se) as (a & _ & Sa). inversion Sa; subst. match goal with Sj : stored _ _ ?j y, Ea : expr_of _ a = Some (EAct ?j _ _) |- _ => destruct (seen_spos SE Sj) as (x & SP & Sx); apply (DONE x); [|exact Sx]; apply (CO x (proj2 (PLACE x Sx))); right;
        exists a, j, b', (ActPath p); split; [exact (LOW a _ Ea ltac:(discriminate))|]; split; [exact Ea|exact SP] end.
Qed.
(** When every function that an action names returns a value, nothing is reported. *)
Theorem C65_quiet : forall rust_type rust_item return_type generics, reads rust_type -> reads rust_item ->
  forall fuel ts m, oak rust_type rust_item return_type generics fuel ts = WOk (Some m) ->
  forall attrs bs, read_as rust_type rust_item ts attrs bs ->
  (forall n e t b f, In (n, e) (block_rules bs) -> within e (XAct t b [f]) -> ~ valueless return_type bs f) ->
  exists N, forall fuel', N <= fuel' -> oak_units rust_type rust_item return_type generics fuel' ts = WOk [].
Proof.
  intros rt ri rty gen RT RI fuel ts m H attrs bs RD Q. destruct (C65_units RT RI H RD) as (l & (N & K) & _ & SO & _). exists N. intros k L. rewrite (K k L). destruct l as [|[i f] l]; [reflexivity|]. exfalso.
  assert (TR : forall a b c, within a b -> within b c -> within a c) by (induction 1; intros; [assumption|]; econstructor; eauto).
  assert (SW : forall t u, seen t u -> within t u).
  { induction 1; [constructor|..]; (eapply wi_step; [|eassumption]); cbn [operands]; first [assumption | left; reflexivity]. }
  destruct (SO i f (or_introl eq_refl)) as (V & n & e & t & b & Ie & [SE|(x & y & WI & OP & SE)]); refine (Q n e t b f Ie _ V); [exact (SW _ _ SE)|].
  apply (TR _ _ _ WI). refine (@wi_step x y _ _ (SW _ _ SE)). inversion OP; subst; left; reflexivity.
Qed.

(** ---------------- the actions that are called ---------------- *)
(** A function of the grammar written without a return type. *)
Definition returnless (return_type : string -> option string) (bs : list block) (p : list string) : Prop :=
  exists f, p = [f] /\ returned return_type (functions (block_items bs)) f = Some None.
(** The function outside of the module makes this call in some run of it. *)
Definition makes (xf : mode -> list string -> pst -> outcome (pst * alog)) (q : action * list value) : Prop :=
  exists md p st st' l, xf md p st = Done (st', l) /\ In q l.
Lemma find_map_in (A B : Type) (f : A -> option B) l b : find_map f l = Some b -> exists a, In a l /\ f a = Some b.
Proof.
  induction l as [|a l IH]; intros H; [discriminate|]. cbn [find_map] in H. destruct (f a) as [b'|] eqn:F.
  - injection H as ->. exists a. split; [left; reflexivity|exact F].
  - destruct (IH H) as (a' & I0 & Q). exists a'. split; [right; exact I0|exact Q].
Qed.
Lemma prog_rule generics g G m md id f : compile_mod_content generics g G = WOk m -> prog_of m md id = Some f ->
  exists rl, In rl (rules G) /\ rname rl = id /\ gen_rule G md rl = COk f.
Proof.
  intros C H. unfold prog_of in H. destruct (find_map_in H) as (it & I0 & Q). destruct md, it as [ri|n sg f0|n sg f0|n src]; try discriminate Q;
    (destruct (String.eqb n id) eqn:EN; [|discriminate Q]); injection Q as ->; apply String.eqb_eq in EN; subst n.
  - exact (content_recognizers C I0).
  - destruct (proj1 (content_parsers C) _ _ _ I0) as (rl & Irl & RN & GP & _). exists rl. auto.
Qed.
Lemma reaches_snoc es x y e c : reaches es x y -> nth_error es y = Some e -> In c (children e) -> reaches es x c.
Proof. induction 1 as [x|x e0 d y E0 I0 R IH]; intros Ey Ic; [eapply rc_child; [exact Ey|exact Ic|constructor]|]. eapply rc_child; [exact E0|exact I0|exact (IH Ey Ic)]. Qed.

(** Whatever the state, the functions outside of the module and the arguments: a function of the module calls only actions
    written in its rules, and never a function that the grammar declares without a return type; other calls are those of
    functions outside of the module. *)
Theorem C65_calls : forall rust_type rust_item return_type generics, reads rust_type -> reads rust_item ->
  forall fuel ts m, oak rust_type rust_item return_type generics fuel ts = WOk (Some m) ->
  forall attrs bs, read_as rust_type rust_item ts attrs bs ->
  forall xf k md n st st' log, run_fn (prog_of m) xf k md n st = Done (st', log) ->
  forall f args, In (f, args) log ->
    makes xf (f, args) \/
    exists n' e t b p, In (n', e) (block_rules bs) /\ within e (XAct t b p) /\ f = ActPath p /\ ~ returnless return_type bs p.
Proof.
  intros rt ri rty gen RT RI fuel ts m H attrs bs RD xf k md n st st' log R f args I0.
  destruct (source_env RT RI H RD) as (fg & g & G' & PA & MA & RA & TI & C & RE).
  pose proof (C38_well_built PA MA) as WB. set (G := shape g) in *. set (E := env_of rty gen g fuel) in *. pose proof (source_stored PA MA RA) as SS. fold G in SS.
  set (P := fun q : action * list value => makes xf q \/ exists n' e t b p, In (n', e) (block_rules bs) /\ within e (XAct t b p) /\ fst q = ActPath p /\ ~ returnless rty bs p).
  assert (EXT : forall i e, expr_of G i = Some e -> expr_of (igrammar G) i = Some e).
  { intros i e Ee. rewrite ig_low; [exact Ee|]. apply nth_error_Some. unfold expr_of in Ee. congruence. }
  assert (FORM : rules G' = rules G /\ exprs G' = exprs (igrammar G)).
  { destruct (infer_inv TI) as (st1 & st2 & st3 & out & _ & _ & _ & _ & _ & _ & _ & ->). split; reflexivity. }
  destruct FORM as [FR FE].
  assert (K : log_ok P (run_fn (prog_of m) xf k md n st)).
  { apply run_log with (R := fun _ _ => True).
    - intros md' id fn PR. destruct (prog_rule C PR) as (rl & Irl & _ & GR). rewrite FR in Irl.
      refine (@rule_calls P (fun _ _ => True) True G' (fun i => reaches (exprs (igrammar G)) (rexpr rl) i) _ _ (fun _ _ _ _ _ _ => Logic.I) (fun _ _ _ _ _ _ => Logic.I) md' rl fn (or_intror Logic.I) Logic.I (rc_self _ _) GR).
      + intros i e c Ri Ei Ic. unfold expr_of in Ei. rewrite FE in Ei. exact (reaches_snoc Ri Ei Ic).
      + intros i e b a Ri Ei Ui vs. right. unfold expr_of in Ei. rewrite FE in Ei. change (expr_of (igrammar G) i = Some (EAct e b a)) in Ei.
        destruct (rule_source SS Irl) as (t & It & St). destruct (proj1 (sub_within (block_rules bs) Ri) t (stored_ext EXT St)) as [(u & WI & Su)|(j & u & Q & _)]; [|congruence].
        inversion Su; subst; try congruence. match goal with E1 : expr_of _ i = Some ?a1 |- _ => assert (XQ : EAct e b a = a1) by congruence; injection XQ as <- <- -> end.
        eexists (rname rl), t, _, b, p. split; [exact It|]. split; [exact WI|]. split; [reflexivity|]. intros (gn & -> & RN). rewrite <- RE in RN.
        destruct (ig_cases Ei) as [[Li EG]|[_ Q]]; [|discriminate Q].
        assert (TY : exists w, ty_of G' i = Some w).
        { destruct (typed_table WB TI) as (T & SH & LT & _). destruct (nth_error T i) as [v|] eqn:Ev; [|apply nth_error_None in Ev; lia]. destruct (SH i v Ev) as (w & Ew & _). eauto. }
        destruct TY as (w & Ew). assert (UN : w = TUnit).
        { destruct (C48_constant_types WB TI EG eq_refl Ew) as [CR|[-> _]]; [|reflexivity]. inversion CR; subst. match goal with A : action_rule _ _ _ _ _ _ |- _ => inversion A; subst; solve [reflexivity | congruence | exfalso; match goal with L : length _ <> _ |- _ => exact (L eq_refl) end] end. }
        unfold is_unit in Ui. rewrite Ew, UN in Ui. discriminate Ui.
    - intros md' p s. destruct (xf md' p s) as [[s' l]| | |] eqn:X; try exact Logic.I. apply Forall_forall. intros q Iq. left. exists md', p, s, s', l. auto. }
  rewrite R in K. cbn in K. rewrite Forall_forall in K. exact (K (f, args) I0).
Qed.
(** So a function of the grammar without a return type is never called, reported or not. *)
Theorem C65_returnless : forall rust_type rust_item return_type generics, reads rust_type -> reads rust_item ->
  forall fuel ts m, oak rust_type rust_item return_type generics fuel ts = WOk (Some m) ->
  forall attrs bs, read_as rust_type rust_item ts attrs bs ->
  forall f, returned return_type (functions (block_items bs)) f = Some None ->
  forall xf, (forall args, ~ makes xf (ActPath [f], args)) ->
  forall md n t st log, called m xf md n t st log -> forall args, ~ In (ActPath [f], args) log.
Proof.
  intros rt ri rty gen RT RI fuel ts m H attrs bs RD f RN xf NX md n t st log (k & R) args I0.
  destruct (C65_calls RT RI H RD R I0) as [M|(n' & e & u & b & p & _ & _ & Q & NR)]; [exact (NX args M)|]. injection Q as <-. apply NR. exists f. auto.
Qed.

(** ---------------- concrete cases ---------------- *)
Local Notation said ret := (oak_units toy_type toy_item ret toy_generics 100).
(** [r = (. > f) !(. > f) !((. > f) > g)], where [f] has no return type and [g] is of another module: the first and the
    last are reported, and not the one directly under a predicate; the macro answers all the same. *)
Definition silent (s : string) : option string := None.
Definition unit_source : list (list (list string) * source) :=
  one_rule (XSeq [XAct XAny false ["f"]; XNot (XAct XAny false ["f"]); XNot (XAct (XAct XAny false ["f"]) false ["g"])]).
Example C65_case : (exists m, oak toy_type toy_item silent toy_generics 100 (print_grammar toy_toks unit_source) = WOk (Some m)) /\
  read_as toy_type toy_item (print_grammar toy_toks unit_source) [] (map (fun q => meaning (snd q)) unit_source) /\
  valueless silent (map (fun q => meaning (snd q)) unit_source) "f" /\
  (exists i j, said silent (print_grammar toy_toks unit_source) = WOk [(i, "f"); (j, "f")] /\ i <> j).
Proof.
  split; [eexists; vm_compute; reflexivity|]. split; [|split; [left; reflexivity|eexists _, _; split; [vm_compute; reflexivity|discriminate]]].
  refine (C38_canonical_read (rust_type := toy_type) (rust_item := toy_item) (ty_toks := toy_toks) (fun r => eq_refl) (one_canon _)).
  split; [constructor|]; cbn; repeat split; try discriminate; try lia; repeat constructor; try discriminate.
Qed.
(** The message says that a reported action will never be called.  Without a return type it is so here; with [()], for
    [r = . > f], [f] is called on the character read. *)
Definition gives_unit (s : string) : option string := Some "()".
Definition void_rule : list (list (list string) * source) := one_rule (XAct XAny false ["f"]).
Theorem C65_never_called_refuted : exists m m' i, said gives_unit (print_grammar toy_toks void_rule) = WOk [(i, "f")] /\ said silent (print_grammar toy_toks void_rule) = WOk [(i, "f")] /\
  oak toy_type toy_item gives_unit toy_generics 100 (print_grammar toy_toks void_rule) = WOk (Some m) /\ oak toy_type toy_item silent toy_generics 100 (print_grammar toy_toks void_rule) = WOk (Some m') /\
  (exists st, called m noxf Par "r" [97%N] st [(ActPath ["f"], [VChar 97])]) /\ (exists st, called m' noxf Par "r" [97%N] st []).
Proof.
  eexists _, _, _. split; [vm_compute; reflexivity|]. split; [vm_compute; reflexivity|]. split; [vm_compute; reflexivity|]. split; [vm_compute; reflexivity|].
  split; eexists; exists 100; vm_compute; reflexivity.
Qed.

Print Assumptions C65_units.
Print Assumptions C65_quiet.
Print Assumptions C65_calls.
Print Assumptions C65_returnless.
Print Assumptions C65_case.
Print Assumptions C65_never_called_refuted.
