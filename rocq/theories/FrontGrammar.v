(** Parsing the canonical text of a whole grammar gives back the grammar. *)
From Coq Require Import Ascii.
From Verif Require Import Base Grammar CharClass Analysis Front FrontFacts FrontSpec FrontSound FrontRound.
Set Implicit Arguments. Unset Strict Implicit.
Open Scope nat_scope. Open Scope list_scope.

(** A grammar as written: each block after its inner attributes. *)
Inductive source :=
| SRule (name : string) (ann : option ity) (body : tree)
| SItem (ts : list tok) (it : Analysis.rust_item).
(** [r: T = e] stands for [r = e: T]. *)
Definition meaning (s : source) : block :=
  match s with
  | SRule n None t => BRule n t
  | SRule n (Some ty) t => BRule n (XAsc t ty)
  | SItem _ it => BItem it
  end.

Section Grammar.
Variable rust_type : list tok -> option (string * list tok).
Variable rust_item : list tok -> option (Analysis.rust_item * list tok).
Variable ty_toks : string -> list tok.
Hypothesis type_no_colon : forall r, rust_type (TPunct ":" false :: r) = None.

Definition print_source (s : source) : list tok :=
  match s with
  | SRule n None t => TId n :: TPunct "=" false :: print ty_toks t
  | SRule n (Some ty) t => TId n :: TPunct ":" false :: ity_toks ty_toks ty ++ TPunct "=" false :: print ty_toks t
  | SItem ts _ => ts
  end.
Definition print_attr (p : list string) : list tok := [TPunct "#" false; TPunct "!" false; TGroup Bracket (path_toks p)].
Definition print_block (q : list (list string) * source) : list tok := flat_map print_attr (fst q) ++ print_source (snd q).
Definition print_grammar (l : list (list (list string) * source)) : list tok := flat_map print_block l.

(** Blocks the syntax can express: an item starts with a keyword that is not part of a path. *)
Definition canon_source (s : source) : Prop :=
  match s with
  | SRule _ None t => canon rust_type ty_toks t
  | SRule _ (Some ty) t => canon_ty rust_type ty_toks ty /\ canon rust_type ty_toks t
  | SItem ts it => (forall r, rust_item (ts ++ r) = Some (it, r)) /\ exists k ts', ts = TKw k :: ts' /\ segment (TKw k) = None
  end.
Definition canon_block (q : list (list string) * source) : Prop := Forall (fun p => p <> []) (fst q) /\ canon_source (snd q).

Notation soft := (@soft).
Notation stops := (stops rust_type).
(** What may follow a rule. *)
Definition ends (r : list tok) : Prop := soft r /\ stops r /\ eat [">"]%char r = None /\ eat ["/"]%char r = None.
Lemma ends_nil : ends []. Proof. repeat split. Qed.
Lemma stops_kw k r : segment (TKw k) = None -> stops (TKw k :: r).
Proof.
  intros H s es. unfold parse_typed_expr, parse_prefixed_expr, parse_suffixed_expr, parse_rule_atom, atom_group, atom_tail, parse_path.
  change (match eat [":"; ":"]%char (TKw k :: r) with Some r0 => r0 | None => TKw k :: r end) with (TKw k :: r). cbn iota. rewrite H. reflexivity.
Qed.
Lemma ends_kw k r : segment (TKw k) = None -> ends (TKw k :: r).
Proof. intros H. unfold ends. split; [exact I|]. split; [apply stops_kw, H|]. split; reflexivity. Qed.
Lemma ends_attr r : ends (TPunct "#" false :: r).
Proof.
  unfold ends. split; [cbn; repeat split; discriminate|]. split; [|split; reflexivity].
  apply stops_punct. intros x Ix. cbn in Ix. intuition congruence.
Qed.
Lemma lhs_stops n r : peek_rule_lhs rust_type (TId n :: r) = true -> path_rest r = Some ([], r) -> ends (TId n :: r).
Proof.
  intros H P. unfold ends. split; [exact I|]. split; [|split; reflexivity]. intros s es. unfold parse_typed_expr, parse_prefixed_expr, parse_suffixed_expr, parse_rule_atom, atom_group, atom_tail, parse_path.
  change (match eat [":"; ":"]%char (TId n :: r) with Some r0 => r0 | None => TId n :: r end) with (TId n :: r). cbn [segment]. rewrite P, H. reflexivity.
Qed.
Lemma lhs_plain n r : peek_rule_lhs rust_type (TId n :: TPunct "=" false :: r) = true. Proof. reflexivity. Qed.
Lemma lhs_typed n ty r : canon_ty rust_type ty_toks ty -> peek_rule_lhs rust_type (TId n :: TPunct ":" false :: ity_toks ty_toks ty ++ TPunct "=" false :: r) = true.
Proof.
  intros C. unfold peek_rule_lhs. rewrite (@type_text rust_type ty_toks ty (TPunct "=" false :: r) C eq_refl).
  change (peek ["="]%char (TPunct ":" false :: ity_toks ty_toks ty ++ TPunct "=" false :: r)) with false. reflexivity.
Qed.
Lemma source_ends s r : canon_source s -> ends (print_source s ++ r).
Proof.
  destruct s as [n [ty|] t|ts it]; cbn [print_source canon_source]; intros C.
  - cbn [app]. rewrite <- app_assoc. cbn [app]. apply lhs_stops; [apply lhs_typed, C|]. apply path_rest_not. discriminate.
  - apply lhs_stops; [apply lhs_plain|]. apply path_rest_not. discriminate.
  - destruct C as (_ & k & ts' & -> & Sk). apply ends_kw, Sk.
Qed.
Lemma block_ends q r : canon_block q -> ends (print_block q ++ r).
Proof.
  intros [_ C]. unfold print_block. destruct (fst q) as [|p l]; [apply source_ends, C|]. cbn [flat_map print_attr app]. apply ends_attr.
Qed.
Lemma grammar_ends l : Forall canon_block l -> ends (print_grammar l).
Proof. intros [|q l' C F]; [apply ends_nil|]. cbn [print_grammar flat_map]. apply block_ends, C. Qed.

Lemma attrs_text l : Forall (fun p => p <> []) l -> forall fuel acc r, toks_size (flat_map print_attr l ++ r) < fuel -> eat ["#"]%char r = None ->
  parse_attrs fuel acc (flat_map print_attr l ++ r) = FOk (acc ++ l, r).
Proof.
  intros F. induction F as [|p l NE F IH]; intros fuel acc r L E.
  - destruct fuel; [lia|]. cbn [flat_map app parse_attrs]. rewrite E, app_nil_r. reflexivity.
  - destruct fuel; [lia|]. cbn [flat_map print_attr app] in *. cbn [parse_attrs eat Ascii.eqb Bool.eqb].
    pose proof (path_text NE (r := []) eq_refl) as PT. rewrite app_nil_r in PT. rewrite PT. rewrite IH; [rewrite <- app_assoc; reflexivity| |exact E].
    cbn [toks_size] in L. pose proof (tok_pos (TPunct "#" false)). lia.
Qed.
Lemma source_hash s r : canon_source s -> eat ["#"]%char (print_source s ++ r) = None.
Proof. destruct s as [n [ty|] t|ts it]; cbn; intros C; try reflexivity. destruct C as (_ & k & ts' & -> & _). reflexivity. Qed.

Lemma rule_text fuel n ann t r es : canon_source (SRule n ann t) -> toks_size (print_source (SRule n ann t)) < fuel -> ends r ->
  exists i es', parse_rule rust_type fuel (print_source (SRule n ann t) ++ r) es = FOk (mkRule n i, r, es') /\ grows es es' /\
    tree_at es' i (match ann with Some ty => XAsc t ty | None => t end).
Proof.
  intros C L (E1 & E2 & E3 & E4). destruct ann as [ty|]; cbn [canon_source print_source] in *.
  - destruct C as [Cty C]. cbn [toks_size] in L. rewrite toks_app in L. cbn [toks_size tok_size] in L.
    destruct (@choice_text rust_type ty_toks type_no_colon fuel t r es C ltac:(lia) E1 E2 E3 E4) as (i & es' & E & G & T).
    exists (length es'), (es' ++ [EAsc i ty]). split; [|split; [eauto with front|]].
    + cbn [app]. unfold parse_rule. rewrite <- app_assoc. cbn [app]. rewrite (@type_text' rust_type ty_toks ty _ Cty) by reflexivity. cbn [fbind eat Ascii.eqb Bool.eqb].
      rewrite E. cbn [fbind]. destruct Cty as [->|[->|(s & -> & _)]]; reflexivity.
    + cbn [tree_at]. exists i. split; [apply at_new|apply tree_at_grow, T].
  - cbn [toks_size tok_size] in L.
    destruct (@choice_text rust_type ty_toks type_no_colon fuel t r es C ltac:(lia) E1 E2 E3 E4) as (i & es' & E & G & T).
    exists i, es'. split; [|split; assumption]. cbn [app]. unfold parse_rule. rewrite no_colon_type' by reflexivity. cbn [fbind eat Ascii.eqb Bool.eqb]. rewrite E. reflexivity.
Qed.

Lemma blocks_text l : Forall canon_block l -> forall fuel inner g, toks_size (print_grammar l) < fuel -> toks_size (print_grammar l) < inner ->
  exists g', parse_blocks rust_type rust_item fuel inner (print_grammar l) g = FOk g' /\ grows (f_exprs g) (f_exprs g') /\
    f_attrs g' = f_attrs g ++ flat_map fst l /\ f_items g' = f_items g ++ block_items (map (fun q => meaning (snd q)) l) /\
    exists rs, f_rules g' = f_rules g ++ rs /\ rules_at (f_exprs g') rs (block_rules (map (fun q => meaning (snd q)) l)).
Proof.
  intros F. induction F as [|q l C F IH]; intros fuel inner g L1 L2.
  - destruct fuel; [lia|]. cbn. exists g. rewrite !app_nil_r. repeat split; [apply grows_refl|]. exists []. rewrite app_nil_r. split; [reflexivity|constructor].
  - destruct C as [Ca Cs]. pose proof (grammar_ends F) as En.
    cbn [print_grammar flat_map] in *. fold (print_grammar l) in *. rewrite toks_app in L1, L2. unfold print_block in L1, L2. rewrite toks_app in L1, L2.
    destruct fuel as [|k]; [lia|]. cbn [parse_blocks].
    assert (POS : 0 < toks_size (print_source (snd q))).
    { destruct (snd q) as [n [ty|] t|ts it]; cbn [print_source toks_size tok_size]; [lia|lia|]. destruct Cs as (_ & kk & ts' & -> & _). cbn. lia. }
    remember (print_block q ++ print_grammar l) as ts eqn:Ets. assert (NE : exists a b, ts = a :: b).
    { destruct ts as [|a b]; [|eauto]. exfalso. apply (f_equal toks_size) in Ets. rewrite toks_app in Ets. unfold print_block in Ets. rewrite toks_app in Ets. cbn in Ets. lia. }
    destruct NE as (a & b & NE).
    assert (GO : forall X Y : fres fgrammar, X = Y -> match ts with [] => FOk g | _ :: _ => X end = Y) by (intros X Y ->; rewrite NE; reflexivity).
    unfold print_block in Ets. rewrite <- app_assoc in Ets.
    assert (PA : parse_attrs inner [] ts = FOk (fst q, print_source (snd q) ++ print_grammar l)).
    { subst ts. rewrite attrs_text; [reflexivity|exact Ca| |apply source_hash, Cs]. rewrite !toks_app. lia. }
    destruct (snd q) as [n ann t|its it] eqn:Eq.
    + assert (PK : peek_rule_lhs rust_type (print_source (SRule n ann t) ++ print_grammar l) = true).
      { destruct ann as [ty|]; cbn [print_source app]; [rewrite <- app_assoc; apply lhs_typed, Cs|apply lhs_plain]. }
      destruct (@rule_text inner n ann t (print_grammar l) (f_exprs g) Cs ltac:(lia) En) as (i & es' & E & G & T).
      destruct (IH k inner (mkF (f_rules g ++ [mkRule n i]) es' (f_items g) (f_attrs g ++ fst q)) ltac:(lia) ltac:(lia)) as (g' & E' & G' & A1 & A2 & rs & A3 & A4).
      cbn [f_exprs f_rules f_items f_attrs] in *.
      exists g'. split; [|split; [eauto with front|]].
      * apply GO. rewrite PA. cbn [fbind f_exprs f_rules f_items f_attrs]. rewrite PK, E. exact E'.
      * rewrite A1, A2, <- app_assoc. cbn [flat_map map fst snd]. rewrite Eq. split; [reflexivity|]. split; [destruct ann; reflexivity|].
        exists (mkRule n i :: rs). rewrite A3, <- app_assoc. split; [reflexivity|].
        assert (Em : block_rules (meaning (SRule n ann t) :: map (fun q => meaning (snd q)) l) =
          (n, match ann with Some ty => XAsc t ty | None => t end) :: block_rules (map (fun q => meaning (snd q)) l)) by (destruct ann; reflexivity).
        rewrite Em. constructor; [|exact A4]. split; [reflexivity|]. exact (tree_grows G' T).
    + destruct Cs as (It & kk & ts' & -> & Sk). cbn [print_source] in *.
      destruct (IH k inner (mkF (f_rules g) (f_exprs g) (f_items g ++ [it]) (f_attrs g ++ fst q)) ltac:(lia) ltac:(lia)) as (g' & E' & G' & A1 & A2 & rs & A3 & A4).
      cbn [f_exprs f_rules f_items f_attrs] in *.
      exists g'. split; [|split; [exact G'|]].
      * apply GO. rewrite PA. cbn [fbind f_exprs f_rules f_items f_attrs]. change (peek_rule_lhs rust_type ((TKw kk :: ts') ++ print_grammar l)) with false. cbn iota.
        rewrite It. exact E'.
      * rewrite A1, A2, <- !app_assoc. cbn [flat_map map fst snd]. rewrite Eq. split; [reflexivity|]. split; [reflexivity|]. exists rs. split; [exact A3|exact A4].
Qed.

Theorem grammar_text l : Forall canon_block l -> exists g, parse_grammar rust_type rust_item (print_grammar l) = FOk g /\
  f_attrs g = flat_map fst l /\ f_items g = block_items (map (fun q => meaning (snd q)) l) /\
  rules_at (f_exprs g) (f_rules g) (block_rules (map (fun q => meaning (snd q)) l)).
Proof.
  intros F. destruct (@blocks_text l F (S (toks_size (print_grammar l))) (S (toks_size (print_grammar l))) (mkF [] [] [] []) ltac:(lia) ltac:(lia))
    as (g & E & _ & A1 & A2 & rs & A3 & A4). exists g. cbn in A1, A2, A3. split; [exact E|]. rewrite A1, A2, A3. auto.
Qed.
End Grammar.
