(** Property theorems: the declared types are kept at run time, from any state (C59). *)
From Coq Require Import Ascii Permutation.
From Verif Require Import Base Utf8 Stream ParseState RuntimeFacts Grammar PegSpec Target Compile TargetFacts ScopeFacts
  CompileShape EvalRules CompileCorrect ScopeGen GenTotal PegFacts Running WellFormed WfFacts WfSound WfSyntax WfTerm WfFuel PegRun Behave Values CharClass
  Analysis AnalysisFacts PropertiesWf PropertiesPeg PropertiesAnalysis Typing TypeRules SurfaceFacts RefFacts DepthFacts TypingSound TypingFit GenAgree TypingTop TypingVerdict
  PropertiesTyping SumGrammar Front FrontFacts FrontSpec FrontSound FrontRound FrontGrammar PropertiesFront Agree TreeSpec TreeFacts Literals Pipeline MiddleFuel PropertiesMain PropertiesRules RType PropertiesSignature Oak OakFacts PropertiesOak PropertiesRustc PropertiesModule
  TreeWf PropertiesVerdict TreeValues TreeEp PropertiesSource TreeKinds KindFacts KindTrees TreeNames FrontPrint PropertiesParsers PropertiesMutual PropertiesGen SourceChecks ScopeExact SourceNames PropertiesScope
  TreeShapes PropertiesShapes Mutual CodeTypes TypesGen PropertiesCode TypesSound.
Set Implicit Arguments. Unset Strict Implicit.
Open Scope string_scope. Open Scope nat_scope. Open Scope list_scope.

(** ---------------- specification ---------------- *)
(** [recognize_n] (Rec) or [parse_n] (Par) is the function [f] of the module [m], with the signature [sg]. *)
Definition function_of (m : list mod_item) (md : mode) (n : string) (sg : fsig) (f : func) : Prop :=
  In (match md with Rec => MRecognizer n sg f | Par => MParser n sg f end) m.
(** No two recognizers, no two parsers with the same name. *)
Definition distinct_names (m : list mod_item) : Prop :=
  NoDup (flat_map (fun it => match it with MRecognizer n _ _ => [n] | _ => [] end) m) /\
  NoDup (flat_map (fun it => match it with MParser n _ _ => [n] | _ => [] end) m).
(** The values of a type, where those of Rust types are described by [F]; with [made_outside] for [F] this is [of_type] (C50). *)
Inductive of_type_in (F : value -> Prop) : value -> rty -> Prop :=
| oi_unit : of_type_in F VUnit RTUnit
| oi_char c : of_type_in F (VChar c) RTChar
| oi_none t : of_type_in F VNone (RTOption t)
| oi_some v t : of_type_in F v t -> of_type_in F (VSome v) (RTOption t)
| oi_vec l t : Forall (fun v => of_type_in F v t) l -> of_type_in F (VVec l) (RTVec t)
| oi_tuple l ts : Forall2 (of_type_in F) l ts -> of_type_in F (VTuple l) (RTTuple ts)
| oi_rust v s : F v -> of_type_in F v (RTRust s).
(** The data of a state, if any, is of type [t]. *)
Definition carries (F : value -> Prop) (t : rty) (st : pst) : Prop := forall v, data st = Some v -> of_type_in F v t.
(** A run that does not get stuck and keeps to the type [t]: it panics, takes more steps than given, or returns data of type [t] and only
    makes the calls of actions described by [AL]. *)
Definition keeps (F : value -> Prop) (AL : action * list value -> Prop) (t : rty) (r : outcome (pst * alog)) : Prop :=
  match r with Done (st, l) => carries F t st /\ Forall AL l | Stuck => False | Timeout | Crash => True end.
(** The functions of other modules that the code of [m] calls. *)
Definition calls_out (m : list mod_item) (md : mode) (p : list string) : Prop :=
  exists md' n sg f, function_of m md' n sg f /\ In (md, p) (func_outs f).
(** They keep to their types: unit data for recognizers, a value described by [F] for parsers. *)
Definition others_keep (F : value -> Prop) (AL : action * list value -> Prop) (m : list mod_item) (md : mode) (xf : mode -> list string -> pst -> outcome (pst * alog)) : Prop :=
  forall p st, calls_out m md p -> carries F RTUnit st -> keeps F AL (match md with Rec => RTUnit | Par => RTRust "" end) (xf md p st).

(** [AL] describes every call of a function of an action with arguments of the types of its parameters, those of [A]. *)
Definition describes (F : value -> Prop) (A : action -> list tsh -> Prop) (AL : action * list value -> Prop) : Prop :=
  forall f us vs, A f us -> Forall2 (of_shape F) vs us -> AL (f, vs).

(** ---------------- values of a type ---------------- *)
Fixpoint rty_ind' (Q : rty -> Prop) (Hu : Q RTUnit) (Hc : Q RTChar) (Hv : forall t, Q t -> Q (RTVec t)) (Ho : forall t, Q t -> Q (RTOption t))
  (Ht : forall l, Forall Q l -> Q (RTTuple l)) (Hr : forall s, Q (RTRust s)) (t : rty) : Q t :=
  match t with
  | RTUnit => Hu | RTChar => Hc
  | RTVec t => Hv t (rty_ind' Hu Hc Hv Ho Ht Hr t)
  | RTOption t => Ho t (rty_ind' Hu Hc Hv Ho Ht Hr t)
  | RTTuple l => Ht l ((fix go l : Forall Q l := match l with [] => Forall_nil _ | t :: l => Forall_cons t (rty_ind' Hu Hc Hv Ho Ht Hr t) (go l) end) l)
  | RTRust s => Hr s
  end.
Lemma of_shape_type F : forall t v, of_shape F v (rshape t) <-> of_type_in F v t.
Proof.
  induction t as [| |t IH|t IH|l IH|s] using rty_ind'; intros v; cbn [rshape].
  - split; intros H; inversion H; constructor.
  - split; intros H; inversion H; constructor.
  - split; intros H; inversion H as [| | | |vs s FA|vs ss FA|w MO]; subst; constructor; apply Forall_forall; intros v0 I0; rewrite Forall_forall in *; apply IH; auto.
  - split; intros H; inversion H; subst; constructor; apply IH; assumption.
  - split; intros H; inversion H as [| | | | |vs ss FA|]; subst; constructor.
    + revert vs FA H. induction IH as [|t l IHt _ IHl]; intros vs FA H; cbn [map] in FA; inversion FA; subst; constructor; [apply IHt; assumption|]. apply IHl; [assumption|constructor; assumption].
    + revert vs FA H. induction IH as [|t l IHt _ IHl]; intros vs FA H; inversion FA; subst; cbn [map]; constructor; [apply IHt; assumption|]. apply IHl; [assumption|constructor; assumption].
  - split; intros H; inversion H; constructor; assumption.
Qed.
(** With [made_outside], the values of C50. *)
Theorem C59_types : forall t v, of_type_in made_outside v t <-> of_type v t.
Proof.
  induction t as [| |t IH|t IH|l IH|s] using rty_ind'; intros v.
  - split; intros H; inversion H; constructor.
  - split; intros H; inversion H; constructor.
  - split; intros H; inversion H; subst; constructor; apply Forall_forall; intros v0 I0; rewrite Forall_forall in *; apply IH; auto.
  - split; intros H; inversion H; subst; constructor; apply IH; assumption.
  - split; intros H; inversion H as [| | | | |vs ss FA|]; subst; constructor.
    + revert vs FA H. induction IH as [|t l IHt _ IHl]; intros vs FA H; inversion FA; subst; constructor; [apply IHt; assumption|]. apply IHl; [assumption|constructor; assumption].
    + revert vs FA H. induction IH as [|t l IHt _ IHl]; intros vs FA H; inversion FA; subst; constructor; [apply IHt; assumption|]. apply IHl; [assumption|constructor; assumption].
  - split; intros H; inversion H; constructor; assumption.
Qed.
Lemma holds_carries F t st : holds F (rshape t) st <-> carries F t st.
Proof. split; intros H v E; apply of_shape_type; exact (H v E). Qed.

(** ---------------- modules ---------------- *)
Lemma found_func m : distinct_names m -> forall md n sg f, function_of m md n sg f -> prog_of m md n = Some f.
Proof.
  intros [N1 N2] md n sg f. unfold function_of, prog_of. destruct md; [clear N2|clear N1].
  - induction m as [|it m IH]; intros I0; [destruct I0|]. cbn [find_map]. destruct I0 as [->|I0]; [cbn; rewrite String.eqb_refl; reflexivity|]. cbn [flat_map] in N1.
    destruct it as [it|n' sg' f'|n' sg' f'|it]; cbn [app] in N1; try exact (IH N1 I0). inversion N1 as [|? ? NI N']; subst. destruct (String.eqb_spec n' n) as [->|Q]; [|exact (IH N' I0)].
    destruct NI. apply in_flat_map. eexists. split; [exact I0|left; reflexivity].
  - induction m as [|it m IH]; intros I0; [destruct I0|]. cbn [find_map]. destruct I0 as [->|I0]; [cbn; rewrite String.eqb_refl; reflexivity|]. cbn [flat_map] in N2.
    destruct it as [it|n' sg' f'|n' sg' f'|it]; cbn [app] in N2; try exact (IH N2 I0). inversion N2 as [|? ? NI N']; subst. destruct (String.eqb_spec n' n) as [->|Q]; [|exact (IH N' I0)].
    destruct NI. apply in_flat_map. eexists. split; [exact I0|left; reflexivity].
Qed.
Section Foreign.
Variable F : value -> Prop.
Hypothesis MF : forall v, made_outside v -> F v.
Variable AL : action * list value -> Prop.
Lemma run_typed (P : decls) prog xf : prog_typed P prog -> ext_typed F AL P xf -> act_typed F AL P -> forall md n f t, prog md n = Some f -> func_typed P f (rshape t) ->
  forall fuel st, carries F RTUnit st -> keeps F AL t (run_fn prog xf fuel md n st).
Proof.
  intros PT XT AT md n f t E (K & CT & T) fuel st C. apply holds_carries in C. pose proof (eval_sound MF PT XT AT fuel CT T C (Forall2_nil _)) as S0. unfold run_fn. rewrite E.
  destruct (eval prog xf fuel (fclosures f) (fbody f) st []) as [[[st' e] l]| | |]; cbn [obind keeps safe] in *; auto. destruct S0 as [[S0 SL] _]. split; [apply holds_carries, S0|exact SL].
Qed.
Lemma kept m md xf p st t : others_keep F AL m md xf -> calls_out m md p -> holds F SUnit st -> t = (match md with Rec => SUnit | Par => SRust end) ->
  xf md p st <> Stuck /\ forall st' l, xf md p st = Done (st', l) -> holds F t st' /\ Forall AL l.
Proof.
  intros OK CO H ->. change SUnit with (rshape RTUnit) in H. apply holds_carries in H. specialize (OK p st CO H).
  destruct (xf md p st) as [[st' l]| | |]; cbn [keeps] in OK; [| | |destruct OK]; (split; [discriminate|]); intros st0 l0 Q; try discriminate Q. injection Q as <- <-.
  destruct OK as [OK OL]. apply holds_carries in OK. destruct md; auto.
Qed.
(** A module that type checks, of which the functions in [Q] call only functions of [Q]. *)
Lemma module_keeps m (P : decls) : distinct_names m -> (forall md c t, P md c t -> declares m md c t) -> describes F (d_act P) AL ->
  (forall md n sg f, function_of m md n sg f -> P md (Local n) (rshape (sg_value sg)) -> func_typed P f (rshape (sg_value sg))) ->
  forall xf, (forall md p t, P md (Foreign p) t -> others_keep F AL m md xf) ->
  forall md n sg f, function_of m md n sg f -> P md (Local n) (rshape (sg_value sg)) -> forall fuel st, carries F RTUnit st -> keeps F AL (sg_value sg) (run_fn (prog_of m) xf fuel md n st).
Proof.
  intros DN PD DA WT xf OK md n sg f I0 PI fuel st C.
  assert (LT : forall md n sg f, function_of m md n sg f -> P md (Local n) (rshape (sg_value sg)) -> func_typed (limited P (calls_out m)) f (rshape (sg_value sg))).
  { intros md' n' sg' f' I1 P1. apply (func_limited (WT _ _ _ _ I1 P1)). intros md2 p I2. exists md', n', sg', f'. auto. }
  refine (@run_typed (limited P (calls_out m)) (prog_of m) xf _ _ DA md n f (sg_value sg) (found_func DN I0) (LT _ _ _ _ I0 PI) fuel st C).
  - intros md' n' t [D _]. pose proof (PD _ _ _ D) as D'. inversion D' as [n0 sg0 f0 I1|n0 sg0 f0 I1| |]; subst; exists f0.
    + split; [exact (@found_func m DN Rec _ _ _ I1)|exact (LT Rec _ _ _ I1 D)].
    + split; [exact (@found_func m DN Par _ _ _ I1)|exact (LT Par _ _ _ I1 D)].
  - intros md' p t st' [D CO] H. pose proof (PD _ _ _ D) as D'. inversion D'; subst; [exact (kept (OK _ _ _ D) CO H eq_refl)|exact (kept (OK _ _ _ D) CO H eq_refl)].
Qed.
(** A module that type checks keeps to its types: the data it returns, and the arguments it gives to the functions of actions. *)
Theorem C59_typed_module : forall m A, distinct_names m -> (forall md n sg f, function_of m md n sg f -> func_typed (declared m A) f (rshape (sg_value sg))) ->
  describes F A AL ->
  forall xf, (forall md, others_keep F AL m md xf) ->
  forall md n sg f, function_of m md n sg f -> forall fuel st, carries F RTUnit st -> keeps F AL (sg_value sg) (run_fn (prog_of m) xf fuel md n st).
Proof.
  intros m A DN WT DA xf OK md n sg f I0 fuel st C. refine (@module_keeps m (declared m A) DN _ DA _ xf _ md n sg f I0 _ fuel st C); [auto|intros md' n' sg' f' I1 _; exact (WT _ _ _ _ I1)|auto|]. destruct md; econstructor; exact I0.
Qed.

(** ---------------- the modules of the macro ---------------- *)
Lemma rules_names_rec stream G rs l : compile_rules stream G rs = WOk l -> flat_map (fun it => match it with MRecognizer n _ _ => [n] | _ => [] end) l = map rname rs /\
  flat_map (fun it => match it with MParser n _ _ => [n] | _ => [] end) l = map rname rs.
Proof.
  revert l. induction rs as [|rl rs IH]; intros l H; cbn [compile_rules] in H; [injection H as <-; auto|].
  apply wbind_ok in H. destruct H as (r & E1 & H). apply wbind_ok in H. destruct H as (p & E2 & H). apply wbind_ok in H. destruct H as (t & ET & H).
  apply wbind_ok in H. destruct H as (l' & E3 & H). injection H as <-. destruct (IH l' E3) as [Q1 Q2]. cbn. rewrite Q1, Q2. auto.
Qed.
Lemma flat_none A B C (f : A -> B) (g : B -> list C) l : (forall a, g (f a) = []) -> flat_map g (map f l) = [].
Proof. intros H. induction l as [|a l IH]; [reflexivity|]. cbn. rewrite H. exact IH. Qed.
Lemma content_names gen g G m : compile_mod_content gen g G = WOk m -> NoDup (map rname (rules G)) -> distinct_names m.
Proof.
  intros H ND. unfold compile_mod_content in H. apply wbind_ok in H. destruct H as (l & E & H). injection H as <-. destruct (rules_names_rec E) as [Q1 Q2].
  split; rewrite !flat_map_app, !flat_none, app_nil_r by reflexivity; cbn [app]; [rewrite Q1|rewrite Q2]; exact ND.
Qed.
Theorem C59_distinct : forall rust_type rust_item return_type generics, reads rust_type -> reads rust_item ->
  forall fuel ts m, oak rust_type rust_item return_type generics fuel ts = WOk (Some m) -> distinct_names m.
Proof.
  intros rt ri rty gen RT RI fuel ts m H. destruct (oak_inv H) as (fg & g & G' & PA & M & TY & C). pose proof (middle_settles M) as MA.
  apply (content_names C). rewrite (typed_rules PA MA TY). destruct (verdict PA MA) as (V1 & _ & _ & ND). cbn [shape rules]. rewrite V1. exact ND.
Qed.

(** The recognizers of an accepted module keep to their types, from any state; they only call recognizers, and no action. *)
Definition recognizers_of (m : list mod_item) : decls := mkDecls (fun md c t => md = Rec /\ declares m md c t) (fun _ _ => False).
Theorem C59_recognizers : forall rust_type rust_item return_type generics, reads rust_type -> reads rust_item ->
  forall fuel ts m, oak rust_type rust_item return_type generics fuel ts = WOk (Some m) ->
  forall xf, others_keep F AL m Rec xf ->
  forall n sg f, In (MRecognizer n sg f) m -> sg_value sg = RTUnit /\
  forall k st, carries F RTUnit st -> keeps F AL RTUnit (run_fn (prog_of m) xf k Rec n st).
Proof.
  intros rt ri rty gen RT RI fuel ts m H xf OR n sg f I0. pose proof (C59_distinct RT RI H) as DN.
  destruct (oak_inv H) as (fg & g & G' & PA & M & TY & C). pose proof (middle_settles M) as MA. pose proof (content_unit C I0) as US. split; [exact US|]. intros k st CA.
  assert (T : forall n sg f, In (MRecognizer n sg f) m -> func_typed (recognizers_of m) f SUnit).
  { clear n sg f I0 US. intros n sg f I0. destruct (content_recognizers C I0) as (rl & I1 & RN & GR). destruct (typed_shape PA MA TY) as (out & Q & LO).
    refine (@recognizer_types G' (recognizers_of m) (fun i => repeat SUnit (card G' i)) _ _ (fun _ => True) rl f GR); [intros i; apply repeat_length|].
    intros i e Ee. assert (X : recty (declared m (fun _ _ => False)) e).
    { refine (@low_calls _ _ _ _ _ _ _ _ PA MA TY _ _ C _ G' _ _ _ Ee). intros i0 e0. refine (@last_expr g G' (ESpan 0) _ _ i0 e0); [rewrite Q; reflexivity|discriminate]. }
    destruct e; try exact I; split; try reflexivity; exact X. }
  rewrite <- US. refine (@module_keeps m (recognizers_of m) DN _ _ _ xf _ Rec n sg f I0 _ k st CA).
  - intros md c t [_ D]. exact D.
  - intros f0 us vs [].
  - intros md n' sg' f' I1 [-> _]. rewrite (content_unit C I1). exact (T _ _ _ I1).
  - intros md p t [-> _]. exact OR.
  - split; [reflexivity|econstructor; exact I0].
Qed.
(** The parsers too, if no rule makes its parser name a variable out of scope.
    Missing: rules with a value whose type depends on itself, choices that mix foreign and other values. *)
Theorem C59_parsers_partial : forall rust_type rust_item return_type generics, reads rust_type -> reads rust_item ->
  forall fuel ts m, oak rust_type rust_item return_type generics fuel ts = WOk (Some m) ->
  forall attrs bs, read_as rust_type rust_item ts attrs bs -> settled_types (block_rules bs) ->
  forall ret, ret = returned return_type (functions (block_items bs)) -> clear_choices (block_rules bs) ret ->
  forall vd, (forall t, vd t = true <-> void (block_rules bs) ret t) -> (forall n e, In (n, e) (block_rules bs) -> names_fit vd e = true) ->
  describes F (action_takes (block_rules bs) ret) AL -> forall xf, (forall md, others_keep F AL m md xf) ->
  forall md n sg f, function_of m md n sg f -> forall k st, carries F RTUnit st -> keeps F AL (sg_value sg) (run_fn (prog_of m) xf k md n st).
Proof.
  intros rt ri rty gen RT RI fuel ts m H attrs bs RD SE ret RE PC vd VD NF DA xf OK.
  refine (@C59_typed_module m _ (C59_distinct RT RI H) _ DA xf OK). intros md n sg f I0. destruct md; cbn [function_of] in I0.
  - exact (C58_recognizers RT RI H _ I0).
  - destruct (C58_parsers_partial RT RI H RD SE RE PC VD I0) as (e & Ie & Q). apply Q. exact (NF n e Ie).
Qed.
End Foreign.

(** ---------------- several modules ---------------- *)
(** Modules with their paths; the functions they call in each other exist; the others keep to their types. *)
Definition library := list (list string * list mod_item).
Definition bodies (mods : library) : list (list string * (mode -> string -> option func)) := map (fun x => (fst x, prog_of (snd x))) mods.
Definition links (mods : library) (ok : mode -> Prop) : Prop := forall path m md p m' n, In (path, m) mods -> ok md -> calls_out m md p ->
  module_of mods p = Some (m', n) -> exists sg f, function_of m' md n sg f.
Definition beyond_keep (F : value -> Prop) (AL : action * list value -> Prop) (mods : library) (md : mode) (xf : mode -> list string -> pst -> outcome (pst * alog)) : Prop :=
  forall path m p st, In (path, m) mods -> calls_out m md p -> module_of mods p = None -> carries F RTUnit st -> keeps F AL (match md with Rec => RTUnit | Par => RTRust "" end) (xf md p st).
Lemma bodies_of mods p : module_of (bodies mods) p = option_map (fun x => (prog_of (fst x), snd x)) (module_of mods p).
Proof.
  unfold module_of. destruct (rev p) as [|n q]; [reflexivity|]. induction mods as [|[path m] mods IH]; [reflexivity|]. cbn [bodies map find fst snd]. destruct (list_eq_dec string_dec (rev q) path); [reflexivity|exact IH].
Qed.
Lemma module_in (mods : library) p m n : module_of mods p = Some (m, n) -> exists path, In (path, m) mods.
Proof. intros H. destruct (module_of_some H) as (path & I0 & _). exists path. exact I0. Qed.
Section World.
Variable F : value -> Prop.
Variable AL : action * list value -> Prop.
Variable mods : library.
Variable ok : mode -> Prop.
(** Each module keeps to its types when those it calls do. *)
Hypothesis KM : forall path m, In (path, m) mods -> forall xf, (forall md, ok md -> others_keep F AL m md xf) ->
  forall md n sg f, ok md -> function_of m md n sg f -> forall k st, carries F RTUnit st -> keeps F AL (sg_value sg) (run_fn (prog_of m) xf k md n st).
Hypothesis LK : links mods ok.
Variable xf0 : mode -> list string -> pst -> outcome (pst * alog).
Hypothesis BK : forall md, ok md -> beyond_keep F AL mods md xf0.
Hypothesis FC : forall md m path n sg f v, ok md -> In (path, m) mods -> function_of m md n sg f -> of_type_in F v (sg_value sg) -> of_type_in F v (match md with Rec => RTUnit | Par => RTRust "" end).
Lemma world_keeps k : forall path m md, In (path, m) mods -> ok md -> others_keep F AL m md (world (bodies mods) xf0 k).
Proof.
  induction k as [|k IH]; intros path m md I0 OM p st CO CA; cbn [world]; rewrite bodies_of; destruct (module_of mods p) as [[m' n]|] eqn:MO; cbn [option_map fst snd].
  - exact I.
  - exact (BK OM I0 CO MO CA).
  - destruct (LK I0 OM CO MO) as (sg & f & I1). destruct (module_in MO) as (path' & I2).
    pose proof (KM I2 (fun md' o => IH path' m' md' I2 o) OM I1 k CA) as KE.
    destruct (run_fn (prog_of m') (world (bodies mods) xf0 k) k md n st) as [[st' l]| | |]; cbn [keeps] in *; auto. destruct KE as [KE KL]. split; [|exact KL]. intros v E. exact (FC OM I2 I1 (KE v E)).
  - exact (BK OM I0 CO MO CA).
Qed.
Lemma world_run k path m : In (path, m) mods -> forall md n sg f, ok md -> function_of m md n sg f -> forall j st, carries F RTUnit st ->
  keeps F AL (sg_value sg) (run_fn (prog_of m) (world (bodies mods) xf0 k) j md n st).
Proof. intros I0 md n sg f OM I1 j st CA. exact (KM I0 (fun md' o => @world_keeps k path m md' I0 o) OM I1 j CA). Qed.
End World.

(** Recognizers of modules that call each other: no condition but that what they call exists. *)
Theorem C59_linked_recognizers : forall mods : library,
  (forall path m, In (path, m) mods -> exists rust_type rust_item return_type generics fuel ts,
     reads rust_type /\ reads rust_item /\ oak rust_type rust_item return_type generics fuel ts = WOk (Some m)) ->
  links mods (fun md => md = Rec) -> forall (F : value -> Prop) AL xf0, (forall v, made_outside v -> F v) -> beyond_keep F AL mods Rec xf0 ->
  forall path m n sg f, In (path, m) mods -> In (MRecognizer n sg f) m ->
  forall k j st, carries F RTUnit st -> keeps F AL RTUnit (run_fn (prog_of m) (world (bodies mods) xf0 k) j Rec n st).
Proof.
  intros mods OA LK F AL xf0 MF BK path m n sg f I0 I1 k j st CA.
  assert (U : forall path m n sg f, In (path, m) mods -> In (MRecognizer n sg f) m -> sg_value sg = RTUnit).
  { intros path' m' n' sg' f' J0 J1. destruct (OA _ _ J0) as (rt & ri & rty & gen & fuel & ts & RT & RI & O). destruct (oak_inv O) as (fg & g & G' & PA & M & TY & C). exact (content_unit C J1). }
  rewrite <- (U _ _ _ _ _ I0 I1). refine (@world_run F AL mods (fun md => md = Rec) _ LK xf0 _ _ k path m I0 Rec n sg f eq_refl I1 j st CA).
  - intros path' m' J0 xf OK md n' sg' f' -> J1 k' st' CA'. destruct (OA _ _ J0) as (rt & ri & rty & gen & fuel & ts & RT & RI & O). rewrite (U _ _ _ _ _ J0 J1).
    exact (proj2 (C59_recognizers MF RT RI O (OK Rec eq_refl) J1) k' st' CA').
  - intros md ->. exact BK.
  - intros md m' path' n' sg' f' v -> J0 J1 V. rewrite (U _ _ _ _ _ J0 J1) in V. exact V.
Qed.
(** Modules that type check and call each other: a function of one is of a Rust type for another, whatever its value. *)
Theorem C59_linked_modules : forall (mods : library) AL,
  (forall path m, In (path, m) mods -> distinct_names m /\ (forall n sg f, In (MRecognizer n sg f) m -> sg_value sg = RTUnit) /\
     exists A, describes (fun _ => True) A AL /\ forall md n sg f, function_of m md n sg f -> func_typed (declared m A) f (rshape (sg_value sg))) ->
  links mods (fun _ => True) -> forall xf0, (forall md, beyond_keep (fun _ => True) AL mods md xf0) ->
  forall path m md n sg f, In (path, m) mods -> function_of m md n sg f ->
  forall k j st, carries (fun _ => True) RTUnit st -> keeps (fun _ => True) AL (sg_value sg) (run_fn (prog_of m) (world (bodies mods) xf0 k) j md n st).
Proof.
  intros mods AL OA LK xf0 BK path m md n sg f I0 I1 k j st CA.
  refine (@world_run (fun _ => True) AL mods (fun _ => True) _ LK xf0 _ _ k path m I0 md n sg f I I1 j st CA).
  - intros path' m' J0 xf OK md' n' sg' f' _ J1 k' st' CA'. destruct (OA _ _ J0) as (DN & _ & A & DA & WT). refine (@C59_typed_module (fun _ => True) _ AL m' A DN WT DA xf _ md' n' sg' f' J1 k' st' CA'); auto.
  - intros md' _. exact (BK md').
  - intros md' m' path' n' sg' f' v _ J0 J1 V. destruct md'; [|constructor; exact I]. destruct (OA _ _ J0) as (_ & U & _). rewrite (U _ _ _ J1) in V. exact V.
Qed.

(** ---------------- concrete cases ---------------- *)
Local Notation toy_oak := (oak toy_type toy_item toy_return toy_generics 100).
(** Functions of another module: they return a value of theirs, at the same place. *)
Definition foreign : mode -> list string -> pst -> outcome (pst * alog) :=
  fun md p st => match md with Rec => Done (success st VUnit, []) | Par => Done (success st (VExt 7), []) end.
Lemma foreign_keep AL m md : others_keep made_outside AL m md foreign.
Proof. intros p st _ _. destruct md; cbn; (split; [|constructor]); intros v Q; injection Q as <-; repeat constructor. Qed.
(** The calls of actions on values of the types of their operands. *)
Definition fed (rs : list (string * tree)) (c : action * list value) : Prop := exists us, action_takes rs one_ret (fst c) us /\ Forall2 (of_shape made_outside) (snd c) us.
(** A state that already has expectations and unit data. *)
Definition odd_state (t : list N) : pst := mkPS (str_stream t) [[63%N]] false (str_stream t) (Some VUnit).
(** [r = . (("x" / "y") > f)]: the hypotheses hold; from a state with data at "ax" the parser returns [('a', f())]. *)
Example C59_case : exists m sg f, toy_oak (print_grammar toy_toks (one_rule gap_tree)) = WOk (Some m) /\ In (MParser "r" sg f) m /\
  (forall xf, (forall md, others_keep made_outside (fed (one_rules gap_tree)) m md xf) -> forall k st, carries made_outside RTUnit st -> keeps made_outside (fed (one_rules gap_tree)) (sg_value sg) (run_fn (prog_of m) xf k Par "r" st)) /\
  exists st l v, run_fn (prog_of m) foreign 100 Par "r" (odd_state [97%N; 120%N]) = Done (st, l) /\ data st = Some v /\ v = VTuple [VChar 97; VAct (ActPath ["f"]) []].
Proof.
  assert (I1 : In (gap_tree, (KTuple, true)) [(leak_tree, (KRust, false)); (gap_tree, (KTuple, true)); (left_tree, (KTuple, false))]) by (cbn; auto).
  destruct (C28_exact_case I1) as (m & O & RD & ST & _ & VD & (sg & f & IM) & NF). exists m, sg, f. split; [exact O|]. split; [exact IM|].
  assert (T : forall u, tkind (one_rules gap_tree) one_ret u (one_kind KTuple gap_tree u)) by (apply one_kinds; try reflexivity; intros id H; unfold gap_tree in H; no_needs).
  assert (CC : clear_choices (one_rules gap_tree) one_ret) by (apply (one_clear T); reflexivity). split.
  - intros xf OK k st CA. refine (@C59_parsers_partial made_outside _ _ _ _ _ _ (proj1 toy_reads) (proj2 toy_reads) _ _ _ O _ _ RD ST _ eq_refl CC _ VD _ _ xf OK Par _ _ _ IM k st CA);
      [auto| |intros f0 us vs A S0; exists us; auto]. intros n e [Q|[]]. injection Q as <- <-. exact NF.
  - vm_compute in O. apply WOk_inj' in O. injection O as <-. vm_compute. do 3 eexists. split; [reflexivity|]. split; reflexivity.
Qed.

(** [r = . . > f]: whatever is parsed, [f] is only called on two characters; at "ab" it is. *)
Definition both_tree : tree := XAct (XSeq [XAny; XAny]) false ["f"].
Definition on_two_chars (c : action * list value) : Prop := exists a b, c = (ActPath ["f"], [VChar a; VChar b]).
Lemma both_takes (ND : ~ void (one_rules both_tree) one_ret (XSeq [XAny; XAny])) (NA : ~ void (one_rules both_tree) one_ret XAny) :
  forall f us, action_takes (one_rules both_tree) one_ret f us <-> f = ActPath ["f"] /\ us = [SChar; SChar].
Proof.
  intros f us. split.
  - intros (t & b & p & s & -> & (n & e & [E|[]] & W) & SH & ->). injection E as <- <-. inversion W as [|? v ? Iv W']; subst.
    + inversion SH as [t V| | | | | | | | | | | |l ss NV SS|]; subst; [destruct (ND V)|]. inversion SS as [|? ? s1 ? S1 SS1]; subst. inversion SS1 as [|? ? s2 ? S2 SS2]; subst. inversion SS2; subst.
      inversion S1; subst; [destruct NA; assumption|]. inversion S2; subst; [destruct NA; assumption|]. split; reflexivity.
    + exfalso. destruct Iv as [<-|[]]. inversion W' as [|? v' ? Iv' W2]; subst. destruct Iv' as [<-|[<-|[]]]; inversion W2; subst; contradiction.
  - intros [-> ->]. exists (XSeq [XAny; XAny]), false, ["f"], (STup [SChar; SChar]). split; [reflexivity|]. split; [exists "r", both_tree; split; [left; reflexivity|constructor]|]. split; [|reflexivity].
    change (STup [SChar; SChar]) with (assemble (flat_map parts [SChar; SChar])). apply sh_seq; [exact ND|]. repeat constructor.
Qed.
Example C59_action_case : exists m sg f, toy_oak (print_grammar toy_toks (one_rule both_tree)) = WOk (Some m) /\ In (MParser "r" sg f) m /\
  (forall k st st' l, carries made_outside RTUnit st -> run_fn (prog_of m) foreign k Par "r" st = Done (st', l) -> Forall on_two_chars l) /\
  exists st, run_fn (prog_of m) foreign 100 Par "r" (odd_state [97%N; 98%N]) = Done (st, [(ActPath ["f"], [VChar 97; VChar 98])]).
Proof.
  assert (RD : read_as toy_type toy_item (print_grammar toy_toks (one_rule both_tree)) [] (map (fun q => meaning (snd q)) (one_rule both_tree))).
  { apply (C38_canonical_read (rust_type := toy_type) (rust_item := toy_item) (ty_toks := toy_toks) (fun r => eq_refl)). apply one_canon. split; [constructor|cbn; repeat split; try discriminate; lia]. }
  assert (NN : forall id, ~ needs (one_rules both_tree) both_tree id) by (intros id H; unfold both_tree in H; no_needs).
  assert (KK : one_kind KRust both_tree both_tree = KRust) by (vm_compute; reflexivity). destruct (one_kinds KK eq_refl NN) as [ST T].
  assert (CC : clear_choices (one_rules both_tree) one_ret) by (apply (one_clear T); reflexivity). pose proof (one_decides T) as VD.
  assert (ND : ~ void (one_rules both_tree) one_ret (XSeq [XAny; XAny])) by (intros V; apply VD in V; vm_compute in V; discriminate).
  assert (NA : ~ void (one_rules both_tree) one_ret XAny) by (intros V; apply VD in V; vm_compute in V; discriminate).
  destruct (toy_oak (print_grammar toy_toks (one_rule both_tree))) as [[m|]| |] eqn:O; [|exfalso; vm_compute in O; discriminate O..].
  assert (IM : exists sg f, In (MParser "r" sg f) m) by (clear - O; vm_compute in O; apply WOk_inj' in O; injection O as <-; do 2 eexists; right; right; left; reflexivity).
  destruct IM as (sg & f & IM). exists m, sg, f. split; [reflexivity|]. split; [exact IM|]. split.
  - intros k st st' l CA R.
    assert (DA : describes made_outside (action_takes (one_rules both_tree) one_ret) on_two_chars).
    { intros f0 us vs A S0. apply (both_takes ND NA) in A. destruct A as [-> ->]. inversion S0 as [|? ? ? ? S1 S2]; subst. inversion S1; subst. inversion S2 as [|? ? ? ? S3 S4]; subst. inversion S3; subst. inversion S4; subst. do 2 eexists. reflexivity. }
    assert (NF : forall n e, In (n, e) (one_rules both_tree) -> names_fit (fun u => voidb (one_kind KRust both_tree u)) e = true) by (intros n e [Q|[]]; injection Q as <- <-; vm_compute; reflexivity).
    pose proof (@C59_parsers_partial made_outside (fun v H => H) on_two_chars _ _ _ _ (proj1 toy_reads) (proj2 toy_reads) _ _ _ O _ _ RD ST _ eq_refl CC _ VD NF DA foreign (fun md => @foreign_keep on_two_chars m md) Par _ _ _ IM k st CA) as KE.
    rewrite R in KE. exact (proj2 KE).
  - vm_compute in O. apply WOk_inj' in O. injection O as <-. vm_compute. eexists. reflexivity.
Qed.
(** [r = . / p], with [parse_p] of another module returning a value of a type of its own (finding 18): the declared [char] is not kept. *)
Theorem C59_mixed_refuted : exists m sg f st l, toy_oak (print_grammar toy_toks (one_rule mix_tree)) = WOk (Some m) /\ In (MParser "r" sg f) m /\ sg_value sg = RTChar /\
  run_fn (prog_of m) foreign 100 Par "r" (Running.start []) = Done (st, l) /\ data st = Some (VExt 7) /\ forall AL, ~ keeps made_outside AL (sg_value sg) (Done (st, l)).
Proof.
  destruct (toy_oak (print_grammar toy_toks (one_rule mix_tree))) as [[m|]| |] eqn:O; vm_compute in O; try discriminate O. apply WOk_inj' in O. injection O as <-.
  do 5 eexists. split; [reflexivity|]. split; [right; right; left; reflexivity|]. split; [reflexivity|]. split; [vm_compute; reflexivity|]. split; [reflexivity|].
  cbn [keeps sg_value]. intros AL [C _]. specialize (C _ eq_refl). inversion C.
Qed.
(** [r = ("a" ("x" / "y") "z" > f) / ("b" > f)] (finding 7): the parser of a rule that does not fit gets stuck on a variable out of scope. *)
Theorem C59_leak_refuted : exists m, toy_oak (print_grammar toy_toks (one_rule leak_tree)) = WOk (Some m) /\
  run_fn (prog_of m) foreign 100 Par "r" (Running.start [97%N; 120%N; 122%N]) = Stuck.
Proof.
  destruct (toy_oak (print_grammar toy_toks (one_rule leak_tree))) as [[m|]| |] eqn:O; vm_compute in O; try discriminate O. apply WOk_inj' in O. injection O as <-.
  eexists. split; [reflexivity|]. vm_compute. reflexivity.
Qed.
(** The modules of C51: [list] of one calls [elem] of the other, which calls [list]; all hypotheses of both theorems hold of them. *)
Definition linksb (mods : library) : bool :=
  forallb (fun x => forallb (fun q => match module_of mods (snd q) with
    | None => true
    | Some (m', n) => existsb (fun it => match fst q, it with Rec, MRecognizer n' _ _ | Par, MParser n' _ _ => String.eqb n' n | _, _ => false end) m'
    end) (flat_map (fun it => match it with MRecognizer _ _ f | MParser _ _ f => func_outs f | _ => [] end) (snd x))) mods.
Lemma linksb_ok mods (ok : mode -> Prop) : linksb mods = true -> links mods ok.
Proof.
  intros H path m md p m' n I0 _ (md' & n0 & sg0 & f0 & I1 & I2) MO. unfold linksb in H. rewrite forallb_forall in H. specialize (H _ I0). cbn [snd] in H. rewrite forallb_forall in H.
  specialize (H (md, p)). cbn [fst snd] in H. rewrite MO in H.
  assert (IN : In (md, p) (flat_map (fun it => match it with MRecognizer _ _ f | MParser _ _ f => func_outs f | _ => [] end) m)).
  { apply in_flat_map. destruct md'; (eexists; split; [exact I1|exact I2]). }
  apply H in IN. apply existsb_exists in IN. destruct IN as (it & I3 & Q). destruct md, it as [|n1 sg1 f1|n1 sg1 f1|]; try discriminate Q; apply String.eqb_eq in Q; subst n1; exists sg1, f1; exact I3.
Qed.
Definition pair_mods : library := [(["a"], elem_module); (["b"], list_module)].
Definition bad_mods : library := [(["a"], loop_a); (["b"], loop_b)].
Example C59_linked_case : links pair_mods (fun _ => True) /\ links bad_mods (fun _ => True) /\
  (forall path m, In (path, m) (pair_mods ++ bad_mods) -> exists ts, toy_oak ts = WOk (Some m)) /\
  beyond_keep made_outside (fun _ => False) pair_mods Rec foreign.
Proof.
  split; [apply linksb_ok; vm_compute; reflexivity|]. split; [apply linksb_ok; vm_compute; reflexivity|]. split.
  - intros path m [Q|[Q|[Q|[Q|[]]]]]; apply pair_inj in Q; destruct Q as [_ <-]; eexists.
    + instantiate (1 := print_grammar toy_toks elem_source). vm_compute. reflexivity.
    + instantiate (1 := print_grammar toy_toks list_source). vm_compute. reflexivity.
    + instantiate (1 := print_grammar toy_toks (loop_source "elem" ["b"; "list"])). vm_compute. reflexivity.
    + instantiate (1 := print_grammar toy_toks (loop_source "list" ["a"; "elem"])). vm_compute. reflexivity.
  - intros path m p st _ CO _ CA. exact (@foreign_keep (fun _ => False) m Rec p st CO CA).
Qed.
Print Assumptions C59_linked_case.
Print Assumptions C59_typed_module.
Print Assumptions C59_distinct.
Print Assumptions C59_recognizers.
Print Assumptions C59_linked_recognizers.
Print Assumptions C59_linked_modules.
Print Assumptions C59_types.
Print Assumptions C59_parsers_partial.
Print Assumptions C59_case.
Print Assumptions C59_action_case.
Print Assumptions C59_mixed_refuted.
Print Assumptions C59_leak_refuted.
