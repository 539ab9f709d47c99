(** Parsing the canonical text of a tree gives back the tree. *)
From Coq Require Import Ascii.
From Verif Require Import Base Grammar CharClass Analysis Front FrontFacts FrontSpec FrontSound.
Set Implicit Arguments. Unset Strict Implicit.
Open Scope nat_scope. Open Scope list_scope.

Lemma class_exact lead items trail : Forall no_dash items -> class_text lead items trail <> [] ->
  parse_char_class (S (length (class_text lead items trail))) (class_text lead items trail) = FOk (class_intervals lead items trail).
Proof.
  intros F NE. unfold class_text in *. destruct lead; cbn [opt_dash app] in *.
  - cbn [parse_char_class parse_set_of_char_range]. rewrite N.eqb_refl.
    change (flat_map item_text items ++ opt_dash trail) with (body_text items trail). rewrite loop_complete; [reflexivity|exact F|cbn; lia].
  - change (flat_map item_text items ++ opt_dash trail) with (body_text items trail) in *.
    destruct items as [|i items]; [destruct trail; [reflexivity|contradiction]|].
    destruct (body_text (i :: items) trail) as [|c s] eqn:E; [contradiction|]. cbn [parse_char_class parse_set_of_char_range].
    replace (c =? dash)%N with false; [rewrite <- E, loop_complete; [reflexivity|exact F|lia]|].
    symmetry. apply N.eqb_neq. unfold body_text in E. inversion F; subst. destruct i as [d|lo hi]; cbn in E; injection E as <- _; cbn in *; tauto.
Qed.

Section Round.
Variable rust_type : list tok -> option (string * list tok).
Variable ty_toks : string -> list tok.
(** No Rust type starts with a single colon. *)
Hypothesis type_no_colon : forall r, rust_type (TPunct ":" false :: r) = None.
Notation print := (print ty_toks).
Notation print_at := (print_at ty_toks).
Notation ity_toks := (ity_toks ty_toks).
Notation parse_type := (parse_type rust_type).
Notation parse_type' := (parse_type' rust_type).
Notation peek_rule_lhs := (peek_rule_lhs rust_type).

(** A Rust type whose text ends where it ends, whatever follows (but for [+]), and that is not read as [()] or [(^)]. *)
Definition delimited (s : string) : Prop :=
  (forall r, peek ["+"]%char r = false -> rust_type (ty_toks s ++ r) = Some (s, r)) /\
  match ty_toks s with [] => False | TGroup Paren g :: _ => g <> [] /\ peek ["^"]%char g = false | _ => True end.
Definition canon_ty (ty : ity) : Prop :=
  ty = IInvisible \/ ty = IRegular TUnit \/ exists s, ty = IRegular (TRust s) /\ delimited s.
(** Trees the syntax can express. *)
Fixpoint canon (t : tree) : Prop :=
  let fix all (l : list tree) : Prop := match l with [] => True | t :: l' => canon t /\ all l' end in
  match t with
  | XStr _ | XAny => True
  | XClass a b c => Forall no_dash b /\ class_text a b c <> []
  | XCall p => p <> []
  | XSeq l | XAlt l => 2 <= length l /\ all l
  | XStar t | XPlus t | XOpt t | XNot t | XAnd t | XSpan t | XRange t => canon t
  | XAct t _ p => p <> [] /\ canon t
  | XAsc t ty => canon_ty ty /\ canon t
  end.
Lemma canon_all l : (fix all (l : list tree) : Prop := match l with [] => True | t :: l' => canon t /\ all l' end) l <-> Forall canon l.
Proof.
  induction l as [|t l IH]; [split; [constructor|exact (fun _ => I)]|]. split; [intros [A B]; constructor; [exact A|apply IH, B]|].
  intros F. inversion F; subst. split; [assumption|apply IH; assumption].
Qed.

(** ---------------- tokens around an expression ---------------- *)
(** No operator that would extend the expression before. *)
Definition soft (r : list tok) : Prop :=
  match r with
  | TPunct c _ :: _ => c <> "="%char /\ c <> ":"%char /\ c <> "*"%char /\ c <> "+"%char /\ c <> "?"%char
  | _ => True
  end.
Definition stops (r : list tok) : Prop := forall sub es, parse_typed_expr rust_type sub r es = FOk (None, r, es).

Lemma eat_not c r : (forall j q, r <> TPunct c j :: q) -> eat [c] r = None.
Proof.
  intros H. destruct r as [|[] r]; try reflexivity. cbn. destruct (Ascii.eqb c c0) eqn:E; [|reflexivity].
  apply Ascii.eqb_eq in E. subst. exfalso. eapply H. reflexivity.
Qed.
Lemma peek_not c r : (forall j q, r <> TPunct c j :: q) -> peek [c] r = false.
Proof. intros H. unfold peek. now rewrite eat_not. Qed.
Ltac softly H := intros j q Eq; subst; cbn in H; tauto.
Lemma soft_no c r : soft r -> c = "="%char \/ c = ":"%char \/ c = "*"%char \/ c = "+"%char \/ c = "?"%char -> eat [c] r = None.
Proof. intros H C. apply eat_not. intros j q ->. cbn in H. destruct C as [->|[->|[->|[->| ->]]]]; tauto. Qed.
Lemma soft_peek c r : soft r -> c = "="%char \/ c = ":"%char \/ c = "*"%char \/ c = "+"%char \/ c = "?"%char -> peek [c] r = false.
Proof. intros H C. unfold peek. now rewrite (soft_no H C). Qed.

Definition plain (r : list tok) : Prop := path_rest r = Some ([], r) /\ forall s, peek_rule_lhs (TId s :: r) = false.
Lemma path_rest_not r : (forall q, r <> TPunct ":" true :: q) -> path_rest r = Some ([], r).
Proof.
  intros H. destruct r as [|a r]; [reflexivity|]. destruct a; try reflexivity. destruct r as [|b r]; [reflexivity|]. destruct b; try reflexivity. cbn [path_rest].
  destruct (Ascii.eqb c ":" && joint && Ascii.eqb c0 ":")%bool eqn:E; [|reflexivity].
  apply andb_true_iff in E. destruct E as [E _]. apply andb_true_iff in E. destruct E as [E1 ->]. apply Ascii.eqb_eq in E1. subst. exfalso. eapply H. reflexivity.
Qed.
Lemma no_colon_type r : eat [":"]%char r = None -> parse_type r = FOk (IInfer, r, true).
Proof. intros E. unfold Front.parse_type. now rewrite E. Qed.
Lemma no_colon_type' r : eat [":"]%char r = None -> parse_type' r = FOk (IInfer, r).
Proof. intros E. unfold Front.parse_type'. now rewrite (no_colon_type E). Qed.
Lemma plain_intro r : eat ["="]%char r = None -> eat [":"]%char r = None -> plain r.
Proof.
  intros E1 E2. split.
  - apply path_rest_not. intros q ->. discriminate E2.
  - intros s. unfold Front.peek_rule_lhs, peek. rewrite E1, (no_colon_type E2), E1. reflexivity.
Qed.
Lemma soft_plain r : soft r -> plain r.
Proof. intros H. apply plain_intro; apply (soft_no H); auto. Qed.

Lemma type_text ty r : canon_ty ty -> peek ["+"]%char r = false -> parse_type (TPunct ":" false :: ity_toks ty ++ r) = FOk (ty, r, true).
Proof.
  intros [->|[->|(s & -> & D1 & D2)]] P; [reflexivity|reflexivity|]. unfold Front.parse_type. cbn [FrontSpec.ity_toks].
  change (eat [":"]%char (TPunct ":" false :: ty_toks s ++ r)) with (Some (ty_toks s ++ r)). cbn iota beta.
  pose proof (D1 r P) as R. destruct (ty_toks s) as [|k u]; [contradiction|]. cbn [app] in *. rewrite R.
  destruct k; try reflexivity. destruct d; try reflexivity. destruct l as [|g0 g]; [destruct D2 as [D2 _]; contradiction|].
  destruct D2 as [_ D2]. unfold peek in D2. destruct (eat ["^"]%char (g0 :: g)); [discriminate|reflexivity].
Qed.
Lemma type_text' ty r : canon_ty ty -> peek ["+"]%char r = false -> parse_type' (TPunct ":" false :: ity_toks ty ++ r) = FOk (ty, r).
Proof. intros C P. unfold Front.parse_type'. now rewrite (type_text C P). Qed.
Lemma plain_typed ty r : canon_ty ty -> soft r -> plain (TPunct ":" false :: ity_toks ty ++ r).
Proof.
  intros C H. split; [apply path_rest_not; discriminate|]. intros s. unfold Front.peek_rule_lhs. cbn [peek eat]. 
  replace (peek ["="]%char (TPunct ":" false :: ity_toks ty ++ r)) with false by reflexivity.
  rewrite (type_text C (soft_peek H (or_intror (or_intror (or_intror (or_introl eq_refl)))))). apply (soft_peek H). auto.
Qed.

Lemma seg_tok_segment s : segment (seg_tok s) = Some s.
Proof. unfold seg_tok. destruct (existsb (String.eqb s) path_keywords) eqn:E; [|reflexivity]. cbn [segment]. change ["super"; "self"; "Self"; "crate"]%string with path_keywords. rewrite E. reflexivity. Qed.
(** What the parser tries before a path does not start with a segment. *)
Lemma seg_tok_cases s : seg_tok s = TId s \/ (In s path_keywords /\ seg_tok s = TKw s).
Proof. unfold seg_tok. destruct (existsb (String.eqb s) path_keywords) eqn:E; [right|left; reflexivity]. split; [|reflexivity]. apply existsb_exists in E. destruct E as (x & I & Q). apply String.eqb_eq in Q. subst x. exact I. Qed.
Lemma eat_seg c l s r : eat (c :: l) (seg_tok s :: r) = None.
Proof. destruct (seg_tok_cases s) as [-> |[_ ->]]; reflexivity. Qed.
Lemma path_text p r : p <> [] -> path_rest r = Some ([], r) -> parse_path (path_toks p ++ r) = Some (p, r).
Proof.
  intros NE R. assert (A : forall p s, match path_toks (s :: p) ++ r with t :: q => segment t = Some s /\ path_rest q = Some (p, r) | [] => False end).
  { clear p NE. induction p as [|s2 p IH]; intros s; [cbn; split; [apply seg_tok_segment|exact R]|].
    change (path_toks (s :: s2 :: p) ++ r) with (seg_tok s :: TPunct ":" true :: TPunct ":" false :: (path_toks (s2 :: p) ++ r)). split; [apply seg_tok_segment|].
    specialize (IH s2). destruct (path_toks (s2 :: p) ++ r) as [|t q]; [contradiction|]. destruct IH as [S1 P1]. cbn [path_rest]. cbn [Ascii.eqb andb Bool.eqb].
    rewrite S1, P1. reflexivity. }
  destruct p as [|s p]; [contradiction|]. specialize (A p s). unfold parse_path. remember (path_toks (s :: p) ++ r) as X eqn:EX.
  assert (E : eat [":"; ":"]%char X = None) by (subst X; destruct p; apply eat_seg). rewrite E. destruct X as [|t q]; [contradiction|]. destruct A as [-> ->]. reflexivity.
Qed.
Lemma path_head s p r : exists q, path_toks (s :: p) ++ r = seg_tok s :: q.
Proof. destruct p; cbn; eauto. Qed.
Lemma path_ends p r : p <> [] -> plain r -> peek_rule_lhs (path_toks p ++ r) = false.
Proof.
  intros NE [_ R]. destruct p as [|s [|s2 p]]; [contradiction| |].
  { cbn [path_toks app]. destruct (seg_tok_cases s) as [-> |[_ ->]]; [apply R|reflexivity]. }
  change (path_toks (s :: s2 :: p) ++ r) with (seg_tok s :: TPunct ":" true :: TPunct ":" false :: (path_toks (s2 :: p) ++ r)).
  destruct (seg_tok_cases s) as [-> |[_ ->]]; [|reflexivity].
  unfold Front.peek_rule_lhs. change (peek ["="]%char (TPunct ":" true :: TPunct ":" false :: path_toks (s2 :: p) ++ r)) with false. cbn iota.
  unfold Front.parse_type. change (eat [":"]%char (TPunct ":" true :: TPunct ":" false :: path_toks (s2 :: p) ++ r)) with (Some (TPunct ":" false :: path_toks (s2 :: p) ++ r)). cbn iota beta.
  rewrite type_no_colon. reflexivity.
Qed.

(** ---------------- what the parser returns at each precedence level ---------------- *)
Variable fuel : nat.
Notation sub := (fun d => parse_rule_choice rust_type d fuel).
Definition returns_o (f : list tok -> list expr -> fres (option nat * list tok * list expr)) (X : list tok) (t : tree) (rest : list tok) : Prop :=
  forall es, exists i es', f (X ++ rest) es = FOk (Some i, rest, es') /\ grows es es' /\ tree_at es' i t.
Definition returns_n (f : list tok -> list expr -> fres (nat * list tok * list expr)) (X : list tok) (t : tree) (rest : list tok) : Prop :=
  forall es, exists i es', f (X ++ rest) es = FOk (i, rest, es') /\ grows es es' /\ tree_at es' i t.
Definition no_suffix (r : list tok) : Prop := eat ["*"]%char r = None /\ eat ["+"]%char r = None /\ eat ["?"]%char r = None.
Definition parse_branch d (ts : list tok) (es : list expr) : fres (nat * list tok * list expr) :=
  fbind (parse_spanned_expr rust_type (sub d) fuel ts es) (fun q => let '(i, ts, es) := q in parse_semantic_action i ts es).
Definition W (n : nat) (X : list tok) (t : tree) : Prop :=
  forall d rest, toks_size X <= d -> toks_size X < fuel ->
  match n with
  | 0 => soft rest -> stops rest -> eat [">"]%char rest = None -> eat ["/"]%char rest = None -> returns_n (choice_level rust_type (sub d) fuel) X t rest
  | 1 => soft rest -> stops rest -> eat [">"]%char rest = None -> returns_n (parse_branch d) X t rest
  | 2 => soft rest -> stops rest -> returns_n (parse_spanned_expr rust_type (sub d) fuel) X t rest
  | 3 => soft rest -> stops rest -> returns_n (parse_seq rust_type (sub d) fuel) X t rest
  | 4 => soft rest -> returns_o (parse_typed_expr rust_type (sub d)) X t rest
  | 5 => plain rest -> no_suffix rest -> returns_o (parse_prefixed_expr rust_type (sub d)) X t rest
  | 6 => plain rest -> no_suffix rest -> returns_o (parse_suffixed_expr rust_type (sub d)) X t rest
  | _ => plain rest -> returns_o (parse_rule_atom rust_type (sub d)) X t rest
  end.

(** The first token of an expression at level [n]. *)
Definition head_ok (n : nat) (X : list tok) : Prop :=
  match X with
  | TStr _ :: _ | TId _ :: _ | TGroup _ _ :: _ => True
  | TKw s :: _ => In s path_keywords
  | TPunct c j :: _ => (c = "."%char /\ (3 <= n -> j = false)) \/ ((c = "!"%char \/ c = "&"%char) /\ n <= 5)
  | _ => False
  end.
Lemma head_le n m X : m <= n -> head_ok n X -> head_ok m X.
Proof. intros L H. destruct X as [|[] X]; cbn in *; auto. destruct H as [[A B]|[A B]]; [left|right]; split; auto; lia. Qed.
Lemma head_soft n X r : head_ok n X -> soft (X ++ r).
Proof.
  intros H. destruct X as [|[] X]; cbn in *; auto; try contradiction.
  destruct H as [[-> _]|[[-> | ->] _]]; repeat split; discriminate.
Qed.
Lemma head_eat n X r c : head_ok n X -> c <> "."%char -> (n <= 5 -> c <> "!"%char /\ c <> "&"%char) -> eat [c] (X ++ r) = None.
Proof.
  intros H D B. apply eat_not. intros j q E. destruct X as [|k X]; [contradiction|]. injection E as -> _. cbn in H.
  destruct H as [[-> _]|[[-> | ->] L]]; [congruence| |]; destruct (B L); congruence.
Qed.
Lemma head_dots n X r c p : head_ok n X -> 3 <= n -> eat ("."%char :: c :: p) (X ++ r) = None.
Proof.
  intros H L. destruct X as [|[] X]; cbn in H; try reflexivity; [contradiction|]. destruct H as [[-> B]|[[-> | ->] _]]; [|reflexivity|reflexivity].
  rewrite (B L). reflexivity.
Qed.
Lemma head_nonempty n X : head_ok n X -> 0 < toks_size X.
Proof. destruct X as [|k X]; [contradiction|]. intros _. cbn. pose proof (tok_pos k). lia. Qed.

(** ---------------- from one level to the looser one ---------------- *)
Lemma W76 X t : W 7 X t -> W 6 X t.
Proof.
  intros H d rest L1 L2 P (S1 & S2 & S3) es. destruct (H d rest L1 L2 P es) as (i & es' & E & G & T). exists i, es'. split; [|split; assumption].
  unfold parse_suffixed_expr. rewrite E. cbn [fbind]. rewrite S1, S2, S3. reflexivity.
Qed.
Lemma W65 X t : head_ok 6 X -> W 6 X t -> W 5 X t.
Proof.
  intros Hd H d rest L1 L2 P Sx es. destruct (H d rest L1 L2 P Sx es) as (i & es' & E & G & T). exists i, es'. split; [|split; assumption].
  unfold parse_prefixed_expr. rewrite !(head_eat _ Hd) by (try discriminate; lia). exact E.
Qed.
Lemma soft_suffix r : soft r -> no_suffix r.
Proof. intros H. repeat split; apply (soft_no H); auto. Qed.
Lemma W54 X t : W 5 X t -> W 4 X t.
Proof.
  intros H d rest L1 L2 S es. destruct (H d rest L1 L2 (soft_plain S) (soft_suffix S) es) as (i & es' & E & G & T). exists i, es'. split; [|split; assumption].
  unfold parse_typed_expr. rewrite E. cbn [fbind]. rewrite no_colon_type' by (apply (soft_no S); auto). reflexivity.
Qed.
Lemma W43 X t : head_ok 4 X -> W 4 X t -> W 3 X t.
Proof.
  intros Hd H d rest L1 L2 S St es. destruct (H d rest L1 L2 S es) as (i & es' & E & G & T). exists i, es'. split; [|split; assumption].
  pose proof (head_nonempty Hd). unfold parse_seq. assert (Q : exists k, fuel = Datatypes.S (Datatypes.S k)) by (exists (fuel - 2); lia). destruct Q as (k & Q).
  rewrite Q at 2. cbn [seq_loop]. rewrite E. cbn [fbind app]. rewrite St. reflexivity.
Qed.
Lemma W32 X t : head_ok 3 X -> W 3 X t -> W 2 X t.
Proof.
  intros Hd H d rest L1 L2 S St es. destruct (H d rest L1 L2 S St es) as (i & es' & E & G & T). exists i, es'. split; [|split; assumption].
  unfold parse_spanned_expr. rewrite !(head_dots _ _ _ Hd) by lia. exact E.
Qed.
Lemma W21 X t : W 2 X t -> W 1 X t.
Proof.
  intros H d rest L1 L2 S St A es. destruct (H d rest L1 L2 S St es) as (i & es' & E & G & T). exists i, es'. split; [|split; assumption].
  unfold parse_branch. rewrite E. cbn [fbind]. unfold parse_semantic_action. rewrite A. reflexivity.
Qed.
Lemma branch_step n d acc ts es i r es' : 0 < n -> parse_branch d ts es = FOk (i, r, es') ->
  choice_loop rust_type (sub d) n fuel acc ts es =
  match eat ["/"]%char r with Some r' => choice_loop rust_type (sub d) (pred n) fuel (acc ++ [i]) r' es' | None => FOk (acc ++ [i], r, es') end.
Proof.
  intros Ln H. destruct n as [|k]; [lia|]. cbn [pred]. apply fbind_ok in H. destruct H as ([[a b] c] & E1 & E2). cbn [choice_loop]. rewrite E1. cbn [fbind]. rewrite E2. reflexivity.
Qed.
Lemma W10 X t : head_ok 1 X -> W 1 X t -> W 0 X t.
Proof.
  intros Hd H d rest L1 L2 S St A B es. destruct (H d rest L1 L2 S St A es) as (i & es' & E & G & T). exists i, es'. split; [|split; assumption].
  pose proof (head_nonempty Hd). unfold choice_level. rewrite (@branch_step fuel d [] _ _ _ _ _ ltac:(lia) E), B. reflexivity.
Qed.
Lemma W_down n X t : n < 7 -> head_ok (S n) X -> W (S n) X t -> W n X t.
Proof.
  intros L Hd H. destruct n as [|[|[|[|[|[|[|]]]]]]]; [apply W10|apply W21|apply W32|apply W43|apply W54|apply W65|apply W76|lia]; auto.
Qed.
Lemma W_le n X t : n <= 7 -> head_ok n X -> W n X t -> forall m, m <= n -> W m X t.
Proof.
  intros L Hd H m Lm. assert (A : forall k, k <= n -> W (n - k) X t).
  { induction k as [|k IH]; intros Lk; [rewrite Nat.sub_0_r; exact H|]. apply W_down; [lia| |].
    - apply (head_le (n := n)); [lia|exact Hd].
    - replace (S (n - S k)) with (n - k) by lia. apply IH. lia. }
  replace m with (n - (n - m)) by lia. apply A. lia.
Qed.
Lemma stops_nil : stops []. Proof. intros s es. reflexivity. Qed.
Lemma W_group X t : W 0 X t -> head_ok 0 X -> W 7 [TGroup Paren X] t.
Proof.
  intros H Hd d rest L1 L2 P es. cbn [toks_size] in L1, L2. rewrite group_size in L1, L2. destruct d as [|d]; [lia|].
  destruct (H d [] ltac:(lia) ltac:(lia) I stops_nil eq_refl eq_refl es) as (i & es' & E & G & T). exists i, es'. split; [|split; assumption].
  rewrite app_nil_r in E. cbn [app]. unfold parse_rule_atom. cbn [eat]. unfold atom_group. destruct X as [|x X]; [contradiction|]. cbn [parse_rule_choice].
  rewrite E. reflexivity.
Qed.
Lemma W_at n t : n <= 7 -> head_ok (level_of t) (print t) -> W (level_of t) (print t) t -> W n (print_at n t) t /\ head_ok n (print_at n t).
Proof.
  intros L Hd H. unfold FrontSpec.print_at, wrap. assert (L7 : level_of t <= 7) by (destruct t; cbn; lia). destruct (level_of t <? n) eqn:E.
  - split; [|exact I]. apply (@W_le 7); [lia|exact I| |lia]. apply W_group; [apply (W_le L7 Hd H); lia|apply (head_le (n := level_of t)); [lia|exact Hd]].
  - apply Nat.ltb_ge in E. split; [apply (W_le L7 Hd H), E|exact (head_le E Hd)].
Qed.

(** ---------------- the first tokens ---------------- *)
Definition print_items (l : list tree) : list tok := flat_map (print_at 4) l.
Fixpoint print_branches (l : list tree) : list tok :=
  match l with [] => [] | [t] => print_at 1 t | t :: l' => print_at 1 t ++ TPunct "/" false :: print_branches l' end.
Lemma print_seq l : print (XSeq l) = print_items l.
Proof. cbn [FrontSpec.print]. unfold print_items. induction l as [|t l IH]; [reflexivity|]. cbn [flat_map]. rewrite <- IH. reflexivity. Qed.
Lemma print_alt l : print (XAlt l) = print_branches l.
Proof.
  cbn [FrontSpec.print]. induction l as [|t [|t2 l] IH]; [reflexivity|reflexivity|].
  change (print_branches (t :: t2 :: l)) with (print_at 1 t ++ TPunct "/" false :: print_branches (t2 :: l)). rewrite <- IH. reflexivity.
Qed.
Lemma head_app n X Y : head_ok n X -> head_ok n (X ++ Y).
Proof. destruct X as [|[] X]; cbn; auto. contradiction. Qed.
Lemma head_at n t : n <= 7 -> head_ok (level_of t) (print t) -> head_ok n (print_at n t).
Proof.
  intros L H. unfold FrontSpec.print_at, wrap. destruct (level_of t <? n) eqn:E; [exact I|]. apply Nat.ltb_ge in E. exact (head_le E H).
Qed.
Lemma print_head t : canon t -> head_ok (level_of t) (print t).
Proof.
  induction t using tree_ind'; intros C; cbn [level_of].
  - exact I.
  - cbn. left. split; auto.
  - exact I.
  - cbn in C. destruct p as [|s p]; [contradiction|]. cbn [FrontSpec.print]. destruct (path_head s p []) as (q & E). rewrite app_nil_r in E. rewrite E.
    destruct (seg_tok_cases s) as [-> |[K ->]]; [exact I|exact K].
  - cbn [canon] in C. destruct C as [L C]. apply canon_all in C. rewrite print_seq. destruct l as [|t l]; [cbn in L; lia|]. inversion H; subst. inversion C; subst.
    unfold print_items. cbn [flat_map]. apply head_app, (head_le (n := 4)); [lia|]. apply head_at; [lia|auto].
  - cbn [canon] in C. destruct C as [L C]. apply canon_all in C. rewrite print_alt. destruct l as [|t [|t2 l]]; [cbn in L; lia|cbn in L; lia|]. inversion H; subst. inversion C; subst.
    change (print_branches (t :: t2 :: l)) with (print_at 1 t ++ TPunct "/" false :: print_branches (t2 :: l)).
    apply head_app, (head_le (n := 1)); [lia|]. apply head_at; [lia|auto].
  - change (print (XStar t)) with (print_at 7 t ++ [TPunct "*" false]). apply head_app, (head_le (n := 7)); [lia|]. apply head_at; [lia|auto].
  - change (print (XPlus t)) with (print_at 7 t ++ [TPunct "+" false]). apply head_app, (head_le (n := 7)); [lia|]. apply head_at; [lia|auto].
  - change (print (XOpt t)) with (print_at 7 t ++ [TPunct "?" false]). apply head_app, (head_le (n := 7)); [lia|]. apply head_at; [lia|auto].
  - cbn. right. split; [auto|lia].
  - cbn. right. split; [auto|lia].
  - change (print (XAct t b p)) with (print_at 2 t ++ TPunct ">" false :: (if b then [TKw "box"] else []) ++ path_toks p).
    apply head_app, (head_le (n := 2)); [lia|]. apply head_at; [lia|]. apply IHt, C.
  - change (print (XAsc t ty)) with (print_at 5 t ++ TPunct ":" false :: ity_toks ty). apply head_app, (head_le (n := 5)); [lia|]. apply head_at; [lia|]. apply IHt, C.
  - cbn. left. split; [auto|lia].
  - cbn. left. split; [auto|lia].
Qed.

(** ---------------- the constructs ---------------- *)
Lemma stops_punct c j r : (forall x, In x [":"; "."; "!"; "&"]%char -> c <> x) -> stops (TPunct c j :: r).
Proof.
  intros H s es. assert (E : forall x, In x [":"; "."; "!"; "&"]%char -> eat [x] (TPunct c j :: r) = None).
  { intros x I. apply eat_not. intros j' q Eq. injection Eq as -> _ _. exact (H x I eq_refl). }
  assert (Ec : forall x y, In x [":"; "."; "!"; "&"]%char -> eat [x; y] (TPunct c j :: r) = None).
  { intros x y I. cbn. destruct (Ascii.eqb x c) eqn:Z; [|reflexivity]. apply Ascii.eqb_eq in Z. subst. exfalso. exact (H c I eq_refl). }
  unfold parse_typed_expr, parse_prefixed_expr. rewrite !E by (cbn; auto). unfold parse_suffixed_expr, parse_rule_atom. rewrite E by (cbn; auto).
  unfold atom_group, atom_tail, parse_path. rewrite Ec by (cbn; auto). cbn [segment]. unfold peek. rewrite Ec by (cbn; auto). cbn [fbind].
  rewrite no_colon_type' by (apply E; cbn; auto). reflexivity.
Qed.
Lemma plain_punct c j r : c <> "="%char -> c <> ":"%char -> plain (TPunct c j :: r).
Proof. intros A B. apply plain_intro; apply eat_not; intros j' q Eq; injection Eq as -> _ _; congruence. Qed.

Lemma W_suffix c (mk : nat -> expr) X t t' : (c = "*"%char /\ mk = EStar /\ t' = XStar t) \/ (c = "+"%char /\ mk = EPlus /\ t' = XPlus t) \/ (c = "?"%char /\ mk = EOpt /\ t' = XOpt t) ->
  W 7 X t -> W 6 (X ++ [TPunct c false]) t'.
Proof.
  intros C H d rest L1 L2 P Sx es. rewrite toks_app in L1, L2. cbn in L1, L2. rewrite <- app_assoc. cbn [app].
  assert (PP : plain (TPunct c false :: rest)) by (apply plain_punct; destruct C as [(-> & _)|[(-> & _)|(-> & _)]]; discriminate).
  destruct (H d (TPunct c false :: rest) ltac:(lia) ltac:(lia) PP es) as (i & es' & E & G & T).
  exists (length es'), (es' ++ [mk i]). split; [|split; [eauto with front|]].
  - unfold parse_suffixed_expr. rewrite E. cbn [fbind]. destruct C as [(-> & -> & _)|[(-> & -> & _)|(-> & -> & _)]]; reflexivity.
  - destruct C as [(_ & -> & ->)|[(_ & -> & ->)|(_ & -> & ->)]]; cbn [tree_at]; exists i; split; try apply at_new; apply tree_at_grow, T.
Qed.
Lemma W_prefix c (mk : nat -> expr) X t t' : (c = "!"%char /\ mk = ENot /\ t' = XNot t) \/ (c = "&"%char /\ mk = EAnd /\ t' = XAnd t) ->
  W 6 X t -> W 5 (TPunct c false :: X) t'.
Proof.
  intros C H d rest L1 L2 P Sx es. cbn in L1, L2. destruct (H d rest ltac:(lia) ltac:(lia) P Sx es) as (i & es' & E & G & T).
  exists (length es'), (es' ++ [mk i]). split; [|split; [eauto with front|]].
  - unfold parse_prefixed_expr. destruct C as [(-> & -> & _)|(-> & -> & _)]; cbn [eat app Ascii.eqb Bool.eqb]; unfold parse_prefixed_expr2; rewrite E; reflexivity.
  - destruct C as [(_ & -> & ->)|(_ & -> & ->)]; cbn [tree_at]; exists i; split; try apply at_new; apply tree_at_grow, T.
Qed.
Lemma W_asc X t ty : canon_ty ty -> W 5 X t -> W 4 (X ++ TPunct ":" false :: ity_toks ty) (XAsc t ty).
Proof.
  intros C H d rest L1 L2 S es. rewrite toks_app in L1, L2. rewrite <- app_assoc. cbn [app].
  destruct (H d (TPunct ":" false :: ity_toks ty ++ rest) ltac:(lia) ltac:(lia) (plain_typed C S) ltac:(repeat split) es) as (i & es' & E & G & T).
  exists (length es'), (es' ++ [EAsc i ty]). split; [|split; [eauto with front|]].
  - unfold parse_typed_expr. rewrite E. cbn [fbind]. rewrite type_text'; [|exact C|apply (soft_peek S); auto]. cbn [fbind].
    destruct C as [->|[->|(s & -> & _)]]; reflexivity.
  - cbn [tree_at]. exists i. split; [apply at_new|apply tree_at_grow, T].
Qed.
Lemma W_act X t (b : bool) p : p <> [] -> W 2 X t -> W 1 (X ++ TPunct ">" false :: (if b then [TKw "box"] else []) ++ path_toks p) (XAct t b p).
Proof.
  intros NE H d rest L1 L2 S St A es. rewrite toks_app in L1, L2. rewrite <- app_assoc. cbn [app].
  assert (S1 : soft (TPunct ">" false :: ((if b then [TKw "box"] else []) ++ path_toks p) ++ rest)) by (cbn; repeat split; discriminate).
  assert (S2 : stops (TPunct ">" false :: ((if b then [TKw "box"] else []) ++ path_toks p) ++ rest)) by (apply stops_punct; intros x Ix; cbn in Ix; intuition congruence).
  destruct (H d _ ltac:(lia) ltac:(lia) S1 S2 es) as (i & es' & E & G & T).
  exists (length es'), (es' ++ [EAct i b (ActPath p)]). split; [|split; [eauto with front|]].
  - unfold parse_branch. rewrite E. cbn [fbind]. unfold parse_semantic_action. cbn [eat Ascii.eqb Bool.eqb].
    destruct (soft_plain S) as [R _]. pose proof (path_text NE R) as PT. destruct b; cbn [app].
    + cbn [String.eqb Ascii.eqb Bool.eqb]. rewrite PT. reflexivity.
    + destruct p as [|s p]; [contradiction|]. destruct (path_head s p rest) as (q & Eq). rewrite Eq in *.
      destruct (seg_tok_cases s) as [Es|[Ks Es]]; rewrite Es in *; [rewrite PT; reflexivity|].
      assert (NB : String.eqb s "box" = false) by (destruct Ks as [<- |[<- |[<- |[<- |[]]]]]; reflexivity). rewrite NB, PT. reflexivity.
  - cbn [tree_at]. exists i. split; [apply at_new|apply tree_at_grow, T].
Qed.
Lemma W_span X t : W 3 X t -> W 2 (TPunct "." true :: TPunct "." false :: X) (XSpan t).
Proof.
  intros H d rest L1 L2 S St es. cbn in L1, L2. destruct (H d rest ltac:(lia) ltac:(lia) S St es) as (i & es' & E & G & T).
  exists (length es'), (es' ++ [ESpan i]). split; [|split; [eauto with front|]].
  - unfold parse_spanned_expr. cbn [eat app Ascii.eqb Bool.eqb]. rewrite E. reflexivity.
  - cbn [tree_at]. exists i. split; [apply at_new|apply tree_at_grow, T].
Qed.
Lemma W_range X t : W 3 X t -> W 2 (TPunct "." true :: TPunct "." true :: TPunct "." false :: X) (XRange t).
Proof.
  intros H d rest L1 L2 S St es. cbn in L1, L2. destruct (H d rest ltac:(lia) ltac:(lia) S St es) as (i & es' & E & G & T).
  exists (Datatypes.S (length es')), ((es' ++ [EAsc i (IRegular TUnit)]) ++ [ERange (length es')]). split; [|split].
  - unfold parse_spanned_expr. cbn [eat app Ascii.eqb Bool.eqb]. rewrite E. cbn [fbind alloc alloced]. unfold alloced, alloc. rewrite app_length. cbn [length]. unfold id. rewrite Nat.add_1_r. reflexivity.
  - eapply grows_trans; [exact G|]. eapply grows_trans; apply grows_one.
  - cbn [tree_at]. exists (length es'), i. split; [|split].
    + replace (Datatypes.S (length es')) with (length (es' ++ [EAsc i (IRegular TUnit)])) by (rewrite app_length; cbn; lia). apply at_new.
    + rewrite nth_error_app1 by (rewrite app_length; cbn; lia). apply at_new.
    + apply tree_at_grow, tree_at_grow, T.
Qed.
Lemma items_loop l : Forall (fun t => W 4 (print_at 4 t) t /\ head_ok 4 (print_at 4 t)) l -> forall k d rest acc es,
  toks_size (print_items l) <= d -> toks_size (print_items l) < fuel -> toks_size (print_items l) < k -> soft rest -> stops rest ->
  exists js es', seq_loop rust_type (sub d) k acc (print_items l ++ rest) es = FOk (acc ++ js, rest, es') /\ grows es es' /\ trees_at es' js l.
Proof.
  intros F. induction F as [|t l [Wt Ht] F IH]; intros k d rest acc es L1 L2 L3 S St.
  - exists [], es. destruct k; [lia|]. cbn [seq_loop print_items flat_map app]. rewrite St. cbn [fbind]. rewrite app_nil_r. repeat split. apply grows_refl.
  - unfold print_items in *. cbn [flat_map] in *. rewrite toks_app in L1, L2, L3. rewrite <- app_assoc. destruct k as [|k]; [lia|]. pose proof (head_nonempty Ht).
    assert (Sr : soft (flat_map (print_at 4) l ++ rest)) by (destruct F as [|t2 l2 [_ H2] F2]; [exact S|cbn [flat_map]; rewrite <- app_assoc; apply (head_soft _ H2)]).
    destruct (Wt d (flat_map (print_at 4) l ++ rest) ltac:(lia) ltac:(lia) Sr es) as (i & es1 & E & G & T).
    destruct (IH k d rest (acc ++ [i]) es1 ltac:(lia) ltac:(lia) ltac:(lia) S St) as (js & es2 & E2 & G2 & T2).
    exists (i :: js), es2. cbn [seq_loop]. rewrite E. cbn [fbind]. rewrite E2, <- app_assoc. split; [reflexivity|]. split; [eauto with front|].
    split; [exact (tree_grows G2 T)|exact T2].
Qed.
Lemma W_seq l : 2 <= length l -> Forall (fun t => W 4 (print_at 4 t) t /\ head_ok 4 (print_at 4 t)) l -> W 3 (print_items l) (XSeq l).
Proof.
  intros L F d rest L1 L2 S St es. destruct (items_loop F [] es L1 L2 L2 S St) as (js & es' & E & G & T).
  exists (length es'), (es' ++ [ESeq js]). pose proof (trees_at_length T) as Ln. split; [|split; [eauto with front|]].
  - unfold parse_seq. rewrite E. cbn [fbind app]. destruct js as [|a [|b js]]; [cbn in Ln; lia|cbn in Ln; lia|]. reflexivity.
  - cbn [tree_at]. exists js. split; [apply at_new|]. exact (trees_at_grow [_] T).
Qed.
Lemma branches_loop l : l <> [] -> Forall (fun t => W 1 (print_at 1 t) t /\ head_ok 1 (print_at 1 t)) l -> forall k d rest acc es,
  toks_size (print_branches l) <= d -> toks_size (print_branches l) < fuel -> toks_size (print_branches l) <= k -> soft rest -> stops rest ->
  eat [">"]%char rest = None -> eat ["/"]%char rest = None ->
  exists js es', choice_loop rust_type (sub d) k fuel acc (print_branches l ++ rest) es = FOk (acc ++ js, rest, es') /\ grows es es' /\ trees_at es' js l.
Proof.
  intros NE F. induction F as [|t l [Wt Ht] F IH]; [contradiction|]. clear NE. intros k d rest acc es L1 L2 L3 S St A B. destruct l as [|t2 l].
  - cbn [print_branches] in *. pose proof (head_nonempty Ht). destruct (Wt d rest L1 L2 S St A es) as (i & es1 & E & G & T). exists [i], es1. rewrite (@branch_step k d acc _ _ _ _ _ ltac:(lia) E), B. repeat split; assumption.
  - change (print_branches (t :: t2 :: l)) with (print_at 1 t ++ TPunct "/" false :: print_branches (t2 :: l)) in *. rewrite toks_app in L1, L2, L3. cbn [toks_size tok_size] in L1, L2, L3.
    rewrite <- app_assoc. cbn [app].
    assert (S1 : soft (TPunct "/" false :: print_branches (t2 :: l) ++ rest)) by (cbn; repeat split; discriminate).
    assert (S2 : stops (TPunct "/" false :: print_branches (t2 :: l) ++ rest)) by (apply stops_punct; intros x Ix; cbn in Ix; intuition congruence).
    destruct (Wt d _ ltac:(lia) ltac:(lia) S1 S2 eq_refl es) as (i & es1 & E & G & T).
    destruct (IH ltac:(discriminate) (pred k) d rest (acc ++ [i]) es1 ltac:(lia) ltac:(lia) ltac:(lia) S St A B) as (js & es2 & E2 & G2 & T2).
    exists (i :: js), es2. rewrite (@branch_step k d acc _ _ _ _ _ ltac:(lia) E). cbn [eat Ascii.eqb Bool.eqb]. rewrite E2, <- app_assoc. split; [reflexivity|]. split; [eauto with front|].
    split; [exact (tree_grows G2 T)|exact T2].
Qed.
Lemma W_alt l : 2 <= length l -> Forall (fun t => W 1 (print_at 1 t) t /\ head_ok 1 (print_at 1 t)) l -> W 0 (print_branches l) (XAlt l).
Proof.
  intros L F d rest L1 L2 S St A B es. assert (NE : l <> []) by (intros ->; cbn in L; lia).
  destruct (branches_loop NE F [] es L1 L2 (Nat.lt_le_incl _ _ L2) S St A B) as (js & es' & E & G & T).
  exists (length es'), (es' ++ [EAlt js]). pose proof (trees_at_length T) as Ln. split; [|split; [eauto with front|]].
  - unfold choice_level. rewrite E. cbn [fbind app]. destruct js as [|a [|b js]]; [cbn in Ln; lia|cbn in Ln; lia|]. reflexivity.
  - cbn [tree_at]. exists js. split; [apply at_new|]. exact (trees_at_grow [_] T).
Qed.

Theorem W_print t : canon t -> W (level_of t) (print t) t.
Proof.
  assert (AT : forall n t, n <= 7 -> canon t -> (canon t -> W (level_of t) (print t) t) -> W n (print_at n t) t).
  { intros n t0 L C H. apply W_at; [exact L|apply print_head, C|apply H, C]. }
  assert (ATL : forall n l, n <= 7 -> Forall canon l -> Forall (fun t => canon t -> W (level_of t) (print t) t) l -> Forall (fun t => W n (print_at n t) t /\ head_ok n (print_at n t)) l).
  { intros n l L C F. induction F as [|t0 l H F IH]; constructor; inversion C; subst; [|apply IH; assumption].
    apply W_at; [exact L|apply print_head; assumption|auto]. }
  induction t using tree_ind'; intros C; cbn [level_of].
  - intros d rest _ _ P es. exists (length es), (es ++ [EStr s]). split; [reflexivity|]. split; [apply grows_one|apply at_new].
  - intros d rest _ _ P es. exists (length es), (es ++ [EAny]). split; [reflexivity|]. split; [apply grows_one|apply at_new].
  - destruct C as [F NE]. intros d rest _ _ P es. exists (length es), (es ++ [EClass (class_intervals a b c)]). split; [|split; [apply grows_one|apply at_new]].
    cbn [FrontSpec.print app]. unfold parse_rule_atom. cbn [eat]. unfold atom_group, atom_tail. cbn [parse_path eat segment]. rewrite (class_exact F NE). reflexivity.
  - intros d rest _ _ P es. exists (length es), (es ++ [EExt p]). split; [|split; [apply grows_one|apply at_new]]. cbn [canon FrontSpec.print] in *.
    pose proof (path_text C (proj1 P)) as PT. pose proof (path_ends C P) as PE. destruct p as [|s p]; [contradiction|]. destruct (path_head s p rest) as (q & Eq).
    rewrite Eq in *. destruct (seg_tok_cases s) as [Es|[_ Es]]; rewrite Es in *; unfold parse_rule_atom; cbn [eat]; unfold atom_group, atom_tail; rewrite PT, PE; reflexivity.
  - cbn [canon] in C. destruct C as [L C]. apply canon_all in C. rewrite print_seq. apply W_seq; [exact L|]. apply ATL; auto; lia.
  - cbn [canon] in C. destruct C as [L C]. apply canon_all in C. rewrite print_alt. apply W_alt; [exact L|]. apply ATL; auto; lia.
  - apply (@W_suffix "*"%char EStar (print_at 7 t) t); auto; apply AT; auto; lia.
  - apply (@W_suffix "+"%char EPlus (print_at 7 t) t); auto; apply AT; auto; lia.
  - apply (@W_suffix "?"%char EOpt (print_at 7 t) t); auto; apply AT; auto; lia.
  - apply (@W_prefix "!"%char ENot (print_at 6 t) t); auto; apply AT; auto; lia.
  - apply (@W_prefix "&"%char EAnd (print_at 6 t) t); auto; apply AT; auto; lia.
  - destruct C as [NE C]. apply (@W_act (print_at 2 t) t b p NE). apply AT; auto; lia.
  - destruct C as [Cty C]. apply (@W_asc (print_at 5 t) t ty Cty). apply AT; auto; lia.
  - apply (@W_span (print_at 3 t) t). apply AT; auto; lia.
  - apply (@W_range (print_at 3 t) t). apply AT; auto; lia.
Qed.

(** A whole right-hand side, followed by [rest]. *)
Theorem choice_text t rest es : canon t -> toks_size (print t) < fuel -> soft rest -> stops rest -> eat [">"]%char rest = None -> eat ["/"]%char rest = None ->
  exists i es', parse_rule_choice rust_type fuel fuel (print t ++ rest) es = FOk (i, rest, es') /\ grows es es' /\ tree_at es' i t.
Proof.
  intros C L S St A B. pose proof (@W_at 0 t ltac:(lia) (print_head C) (W_print C)) as [H _]. unfold FrontSpec.print_at, wrap in H. cbn in H.
  assert (Q : exists d, fuel = Datatypes.S d) by (exists (pred fuel); lia). destruct Q as (d & Q).
  assert (R : forall n, n = Datatypes.S d -> parse_rule_choice rust_type n fuel (print t ++ rest) es = choice_level rust_type (sub d) fuel (print t ++ rest) es)
    by (intros n ->; reflexivity).
  rewrite (R fuel Q). apply (H d rest); auto; lia.
Qed.
End Round.
