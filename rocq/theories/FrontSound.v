(** Every accepted token stream is derived by the documented grammar, and the parser always answers. *)
From Coq Require Import Ascii.
From Verif Require Import Base Grammar CharClass Analysis Front FrontFacts FrontSpec.
Set Implicit Arguments. Unset Strict Implicit.
Open Scope nat_scope. Open Scope list_scope.

Lemma tree_at_grow t : forall es n i, tree_at es i t -> tree_at (es ++ n) i t.
Proof.
  assert (N : forall (es n : list expr) i e, nth_error es i = Some e -> nth_error (es ++ n) i = Some e).
  { intros es n i e H. rewrite nth_error_app1; [exact H|]. apply nth_error_Some. congruence. }
  assert (L : forall l, Forall (fun t => forall es n i, tree_at es i t -> tree_at (es ++ n) i t) l ->
    forall es n js, trees_at es js l -> trees_at (es ++ n) js l).
  { intros l F. induction F as [|t0 l Ft F IH]; intros es n [|j js] H; cbn in *; auto. destruct H. split; [apply Ft|apply IH]; assumption. }
  induction t using tree_ind'; intros es n i Hx; cbn [tree_at] in *;
    try (apply N, Hx); try (destruct Hx as (j & Hx1 & Hx2); exists j; split; [apply N, Hx1|auto]).
  - exact (L l H es n j Hx2).
  - exact (L l H es n j Hx2).
  - destruct Hx as (u & j & H1 & H2 & H3). exists u, j. auto.
Qed.
Lemma trees_at_grow l : forall es n js, trees_at es js l -> trees_at (es ++ n) js l.
Proof. induction l as [|t l IH]; intros es n [|j js] H; cbn in *; auto. destruct H. split; [apply tree_at_grow|apply IH]; assumption. Qed.
Lemma trees_at_snoc es l : forall js i t, trees_at es js l -> tree_at es i t -> trees_at es (js ++ [i]) (l ++ [t]).
Proof. induction l as [|a l IH]; intros [|j js] i t H T; cbn in *; try contradiction; auto. destruct H. split; auto. Qed.
Lemma trees_at_length es l : forall js, trees_at es js l -> length js = length l.
Proof. induction l as [|a l IH]; intros [|j js] H; cbn in *; try contradiction; auto. f_equal. apply IH, H. Qed.
Lemma tree_grows es es' i t : grows es es' -> tree_at es i t -> tree_at es' i t.
Proof. intros (n & ->). apply tree_at_grow. Qed.
Lemma trees_grows es es' js l : grows es es' -> trees_at es js l -> trees_at es' js l.
Proof. intros (n & ->). apply trees_at_grow. Qed.
Lemma at_new (es : list expr) e : nth_error (es ++ [e]) (length es) = Some e.
Proof. rewrite nth_error_app2, Nat.sub_diag by lia. reflexivity. Qed.

Lemma eat1 c ts r : eat [c] ts = Some r -> exists j, ts = TPunct c j :: r.
Proof.
  destruct ts as [|[] ts]; try discriminate. cbn. destruct (Ascii.eqb c c0) eqn:E; [|discriminate].
  apply Ascii.eqb_eq in E. subst. intros H. injection H as <-. eauto.
Qed.
Lemma eat_cons c d p ts r : eat (c :: d :: p) ts = Some r -> exists ts', ts = TPunct c true :: ts' /\ eat (d :: p) ts' = Some r.
Proof.
  destruct ts as [|[] ts]; try discriminate. cbn [eat]. destruct (Ascii.eqb c c0) eqn:E; [|discriminate].
  apply Ascii.eqb_eq in E. subst. destruct joint; [|discriminate]. intros H. exists ts. split; [reflexivity|exact H].
Qed.
Lemma eat2 c d ts r : eat [c; d] ts = Some r -> exists j, ts = TPunct c true :: TPunct d j :: r.
Proof. intros H. apply eat_cons in H. destruct H as (q & -> & H). apply eat1 in H. destruct H as (j & ->). eauto. Qed.
Lemma eat3 c d e ts r : eat [c; d; e] ts = Some r -> exists j, ts = TPunct c true :: TPunct d true :: TPunct e j :: r.
Proof. intros H. apply eat_cons in H. destruct H as (q & -> & H). apply eat2 in H. destruct H as (j & ->). eauto. Qed.

Lemma segment_exact k s : segment k = Some s <-> d_seg k s.
Proof.
  unfold segment. split.
  - destruct k as [ |s'|s'| | | ]; try discriminate; [intros H; injection H as <-; constructor|]. destruct (existsb (String.eqb s') _) eqn:E; [|discriminate]. intros H. injection H as <-.
    constructor. apply existsb_exists in E. destruct E as (x & I & Q). apply String.eqb_eq in Q. subst x. exact I.
  - intros H. destruct H as [s|s I]; [reflexivity|]. assert (E : existsb (String.eqb s) ["super"; "self"; "Self"; "crate"]%string = true) by (apply existsb_exists; exists s; split; [exact I|apply String.eqb_refl]).
    rewrite E. reflexivity.
Qed.
Lemma path_rest_sound : forall n ts p r k s, length ts <= n -> segment k = Some s -> path_rest ts = Some (p, r) -> exists u, ts = u ++ r /\ d_segs (k :: u) (s :: p).
Proof.
  induction n as [|n IH]; intros ts p r k s Ln Sk H.
  - destruct ts; [|cbn in Ln; lia]. cbn in H. injection H as <- <-. exists []. split; [reflexivity|]. constructor. apply segment_exact. exact Sk.
  - assert (NIL : Some ([], ts) = Some (p, r) -> exists u, ts = u ++ r /\ d_segs (k :: u) (s :: p)).
    { intros E. injection E as <- <-. exists []. split; [reflexivity|constructor; apply segment_exact; exact Sk]. }
    destruct ts as [|a ts]; [exact (NIL H)|]. destruct a; try exact (NIL H). destruct ts as [|b ts]; [exact (NIL H)|]. destruct b; try exact (NIL H).
    cbn [path_rest] in H. destruct (Ascii.eqb c ":" && joint && Ascii.eqb c0 ":")%bool eqn:E; [|exact (NIL H)].
    apply andb_true_iff in E. destruct E as [E E2]. apply andb_true_iff in E. destruct E as [E1 E3].
    apply Ascii.eqb_eq in E1, E2. subst c c0 joint. destruct ts as [|t ts]; [discriminate|].
    destruct (segment t) as [s'|] eqn:St; [|discriminate]. destruct (path_rest ts) as [[l q]|] eqn:R; [|discriminate]. injection H as <- <-.
    cbn in Ln. destruct (IH ts l q t s' ltac:(lia) St R) as (u & -> & D). exists (TPunct ":" true :: TPunct ":" joint0 :: t :: u). split; [reflexivity|].
    constructor; [apply segment_exact|]; assumption.
Qed.
Lemma parse_path_sound ts p r : parse_path ts = Some (p, r) -> exists u, ts = u ++ r /\ u <> [] /\ d_path u p.
Proof.
  unfold parse_path. destruct (eat [":"; ":"]%char ts) as [q|] eqn:E.
  - apply eat2 in E. destruct E as (j & ->). destruct q as [|t q]; [discriminate|]. destruct (segment t) as [s|] eqn:St; [|discriminate].
    destruct (path_rest q) as [[l w]|] eqn:R; [|discriminate]. intros H. injection H as <- <-.
    destruct (path_rest_sound (le_n _) St R) as (u & -> & D). exists (TPunct ":" true :: TPunct ":" j :: t :: u). split; [reflexivity|]. split; [discriminate|].
    apply path_colons. exact D.
  - destruct ts as [|t q]; [discriminate|]. destruct (segment t) as [s|] eqn:St; [|discriminate].
    destruct (path_rest q) as [[l w]|] eqn:R; [|discriminate]. intros H. injection H as <- <-.
    destruct (path_rest_sound (le_n _) St R) as (u & -> & D). exists (t :: u). split; [reflexivity|]. split; [discriminate|]. constructor. exact D.
Qed.

Lemma toks_app a b : toks_size (a ++ b) = toks_size a + toks_size b.
Proof. induction a as [|x a IH]; cbn; [reflexivity|]. rewrite IH. lia. Qed.
Lemma tok_pos t : 0 < tok_size t. Proof. destruct t; cbn; lia. Qed.
Lemma toks_pos a : a <> [] -> 0 < toks_size a.
Proof. destruct a as [|x a]; [contradiction|]. intros _. cbn. pose proof (tok_pos x). lia. Qed.
Lemma group_size d l : tok_size (TGroup d l) = S (toks_size l).
Proof. cbn [tok_size]. reflexivity. Qed.

Section Sound.
Variable rust_type : list tok -> option (string * list tok).
Variable rust_item : list tok -> option (rust_item * list tok).
(** The parsers of syn leave a suffix of the tokens they are given, and read at least one. *)
Hypothesis type_reads : forall ts s r, rust_type ts = Some (s, r) -> exists u, u <> [] /\ ts = u ++ r.
Hypothesis item_reads : forall ts it r, rust_item ts = Some (it, r) -> exists u, u <> [] /\ ts = u ++ r.
Notation parse_type := (parse_type rust_type).
Notation parse_type' := (parse_type' rust_type).
Notation d_ty := (d_ty rust_type).
Notation d_choice := (d_choice rust_type).

Lemma parse_type_sound ts t r : parse_type' ts = FOk (t, r) ->
  (t = IInfer /\ r = ts /\ eat [":"]%char ts = None) \/ (t <> IInfer /\ exists j u, ts = TPunct ":" j :: u ++ r /\ u <> [] /\ d_ty u t).
Proof.
  unfold Front.parse_type'. intros H. apply fbind_ok in H. destruct H as ([[t0 r0] b] & E & H). destruct b; [|discriminate].
  apply FOk_inj in H. injection H as <- <-. unfold Front.parse_type in E.
  destruct (eat _ ts) as [q|] eqn:Ea; [|apply FOk_inj in E; injection E as <- <-; left; auto]. right. apply eat1 in Ea. destruct Ea as (j & ->).
  assert (R : match rust_type q with Some (s, r') => FOk (IRegular (TRust s), r', true) | None => FErr end = FOk (t0, r0, true) ->
    t0 <> IInfer /\ exists j' u, TPunct ":" j :: q = TPunct ":" j' :: u ++ r0 /\ u <> [] /\ d_ty u t0).
  { destruct (rust_type q) as [[s r']|] eqn:Q; [|discriminate]. intros H. apply FOk_inj in H. injection H as <- <-. split; [discriminate|].
    destruct (type_reads Q) as (u & NE & ->). exists j, u. split; [reflexivity|]. split; [exact NE|]. econstructor. exact Q. }
  destruct q as [|k q']; [exact (R E)|]. destruct k; try exact (R E). destruct d; try exact (R E). destruct l as [|g0 g].
  - apply FOk_inj in E. injection E as <- <-. split; [discriminate|]. exists j, [TGroup Paren []]. split; [reflexivity|]. split; [discriminate|constructor].
  - destruct (eat _ (g0 :: g)) as [g'|] eqn:Eg; [|exact (R E)]. apply FOk_inj in E. injection E as <- <- Hb. destruct g'; [|discriminate].
    apply eat1 in Eg. destruct Eg as (j' & Eg). rewrite Eg. split; [discriminate|]. exists j, [TGroup Paren [TPunct "^" j']]. split; [reflexivity|].
    split; [discriminate|constructor].
Qed.

Definition sound_opt (D : list tok -> tree -> Prop) (f : list tok -> list expr -> fres (option nat * list tok * list expr)) : Prop :=
  forall ts es o ts' es', f ts es = FOk (o, ts', es') -> grows es es' /\
  match o with
  | None => ts' = ts
  | Some i => exists u t, ts = u ++ ts' /\ u <> [] /\ D u t /\ tree_at es' i t
  end.
Definition sound (D : list tok -> tree -> Prop) (f : list tok -> list expr -> fres (nat * list tok * list expr)) : Prop :=
  forall ts es i ts' es', f ts es = FOk (i, ts', es') -> grows es es' /\ exists u t, ts = u ++ ts' /\ u <> [] /\ D u t /\ tree_at es' i t.

Section Level.
Variable sub : list tok -> list expr -> fres (nat * list tok * list expr).
Hypothesis Hsub : sound d_choice sub.

Lemma none_sound (D : list tok -> tree -> Prop) (ts : list tok) (es : list expr) o (ts' : list tok) es' : FOk (None, ts, es) = FOk (o, ts', es') -> grows es es' /\
  match o with None => ts' = ts | Some i => exists u t, ts = u ++ ts' /\ u <> [] /\ D u t /\ tree_at es' i t end.
Proof. intros H. apply FOk_inj in H. injection H as <- <- <-. split; [apply grows_refl|reflexivity]. Qed.

Lemma tail_sound : sound_opt (d_atom rust_type) (atom_tail rust_type).
Proof.
  intros ts es o ts' es'. unfold atom_tail. destruct (parse_path ts) as [[p r]|] eqn:Ep.
  - destruct (peek_rule_lhs _ ts); [apply none_sound|]. intros H. apply alloced_ok in H. destruct H as (-> & -> & ->). split; [apply grows_one|].
    destruct (parse_path_sound Ep) as (u & -> & NE & D). exists u, (XCall p). repeat split; auto; [constructor; exact D|cbn; apply at_new].
  - assert (END : (if peek ["."; "."]%char ts then FErr else FOk (None, ts, es)) = FOk (o, ts', es') -> grows es es' /\
      match o with None => ts' = ts | Some i => exists u t, ts = u ++ ts' /\ u <> [] /\ d_atom rust_type u t /\ tree_at es' i t end)
      by (destruct (peek _ ts); [discriminate|apply none_sound]).
    destruct ts as [|t r]; [exact END|]. destruct t; try exact END. destruct d; try exact END.
    destruct l as [|[] [|]]; try discriminate. intros H. apply fbind_ok in H. destruct H as (ivs & E & H). apply alloced_ok in H. destruct H as (-> & -> & ->).
    split; [apply grows_one|]. pose proof E as E'. apply class_sound in E. destruct E as (lead & items & trail & F & -> & ->).
    exists [TGroup Bracket [TStr (class_text lead items trail)]], (XClass lead items trail). repeat split; [discriminate| |cbn; apply at_new].
    constructor; [exact F|]. intros Z. rewrite Z in E'. discriminate.
Qed.
Lemma group_sound : sound_opt (d_atom rust_type) (atom_group rust_type sub).
Proof.
  intros ts es o ts' es' H. unfold atom_group in H. pose proof (@tail_sound ts es o ts' es') as T.
  destruct ts as [|t r]; [exact (T H)|]. destruct t; try exact (T H). destruct d; try exact (T H). clear T.
  destruct l as [|g0 g]; [discriminate|]. apply fbind_ok in H. destruct H as ([[i g'] es1] & E & H).
  destruct g'; [|discriminate]. apply FOk_inj in H. injection H as <- <- <-. destruct (Hsub E) as (G & u & t & Eu & NE & D & T). split; [exact G|].
  rewrite app_nil_r in Eu. exists [TGroup Paren (g0 :: g)], t. repeat split; [discriminate|constructor; rewrite Eu; exact D|exact T].
Qed.
Lemma atom_sound : sound_opt (d_atom rust_type) (parse_rule_atom rust_type sub).
Proof.
  intros ts es o ts' es' H. unfold parse_rule_atom in H.
  assert (M' : match eat ["."]%char ts with Some r => alloced Some EAny r es | None => atom_group rust_type sub ts es end = FOk (o, ts', es') -> grows es es' /\
     match o with None => ts' = ts | Some i => exists u t, ts = u ++ ts' /\ u <> [] /\ d_atom rust_type u t /\ tree_at es' i t end).
  { destruct (eat ["."]%char ts) as [r|] eqn:E; [|apply group_sound]. intros Hx. apply alloced_ok in Hx. destruct Hx as (-> & -> & ->). split; [apply grows_one|].
    apply eat1 in E. destruct E as (j & ->). exists [TPunct "." j], XAny. repeat split; [discriminate|constructor|cbn; apply at_new]. }
  destruct ts as [|t r]; [exact (M' H)|]. destruct t; try exact (M' H). apply alloced_ok in H. destruct H as (-> & -> & ->).
  split; [apply grows_one|]. exists [TStr s], (XStr s). repeat split; [discriminate|constructor|cbn; apply at_new].
Qed.

Lemma suffixed_sound : sound_opt (d_suffixed rust_type) (parse_suffixed_expr rust_type sub).
Proof.
  intros ts es o ts' es' H. apply fbind_ok in H. destruct H as ([[o1 ts1] es1] & E & H). destruct (atom_sound E) as [G1 S1]. destruct o1 as [i|].
  - destruct S1 as (u & t & -> & NE & D & T).
    destruct (eat ["*"]%char ts1) as [r|] eqn:E1;
      [apply eat1 in E1; destruct E1 as (j & ->); apply alloced_ok in H; destruct H as (-> & -> & ->); split; [eauto with front|];
       exists (u ++ [TPunct "*" j]), (XStar t); rewrite <- app_assoc; repeat split;
         [destruct u; discriminate|constructor; exact D|cbn; exists i; split; [apply at_new|apply tree_at_grow, T]]|].
    destruct (eat ["+"]%char ts1) as [r|] eqn:E2;
      [apply eat1 in E2; destruct E2 as (j & ->); apply alloced_ok in H; destruct H as (-> & -> & ->); split; [eauto with front|];
       exists (u ++ [TPunct "+" j]), (XPlus t); rewrite <- app_assoc; repeat split;
         [destruct u; discriminate|constructor; exact D|cbn; exists i; split; [apply at_new|apply tree_at_grow, T]]|].
    destruct (eat ["?"]%char ts1) as [r|] eqn:E3;
      [apply eat1 in E3; destruct E3 as (j & ->); apply alloced_ok in H; destruct H as (-> & -> & ->); split; [eauto with front|];
       exists (u ++ [TPunct "?" j]), (XOpt t); rewrite <- app_assoc; repeat split;
         [destruct u; discriminate|constructor; exact D|cbn; exists i; split; [apply at_new|apply tree_at_grow, T]]|].
    apply FOk_inj in H. injection H as <- <- <-. split; [exact G1|]. exists u, t. repeat split; auto. constructor. exact D.
  - apply FOk_inj in H. injection H as <- <- <-. split; [exact G1|exact S1].
Qed.

Lemma prefixed_sound : sound_opt (d_prefixed rust_type) (parse_prefixed_expr rust_type sub).
Proof.
  intros ts es o ts' es' H. unfold parse_prefixed_expr in H.
  destruct (eat ["!"]%char ts) as [r|] eqn:E1; [|destruct (eat ["&"]%char ts) as [r|] eqn:E2].
  - apply eat1 in E1. destruct E1 as (j & ->). apply fbind_ok in H. destruct H as ([[o1 ts1] es1] & E & H). destruct o1 as [i|]; [|discriminate].
    destruct (suffixed_sound E) as (G1 & u & t & -> & NE & D & T). apply alloced_ok in H. destruct H as (-> & -> & ->). split; [eauto with front|].
    exists (TPunct "!" j :: u), (XNot t). repeat split; [discriminate|constructor; exact D|cbn; exists i; split; [apply at_new|apply tree_at_grow, T]].
  - apply eat1 in E2. destruct E2 as (j & ->). apply fbind_ok in H. destruct H as ([[o1 ts1] es1] & E & H). destruct o1 as [i|]; [|discriminate].
    destruct (suffixed_sound E) as (G1 & u & t & -> & NE & D & T). apply alloced_ok in H. destruct H as (-> & -> & ->). split; [eauto with front|].
    exists (TPunct "&" j :: u), (XAnd t). repeat split; [discriminate|constructor; exact D|cbn; exists i; split; [apply at_new|apply tree_at_grow, T]].
  - destruct (suffixed_sound H) as [G S1]. split; [exact G|]. destruct o as [i|]; [|exact S1]. destruct S1 as (u & t & Eu & NE & D & T).
    exists u, t. repeat split; auto. constructor. exact D.
Qed.

Lemma typed_sound : sound_opt (d_typed rust_type) (parse_typed_expr rust_type sub).
Proof.
  intros ts es o ts' es' H. apply fbind_ok in H. destruct H as ([[o1 ts1] es1] & E & H). destruct (prefixed_sound E) as [G1 S1].
  apply fbind_ok in H. destruct H as ([t ts2] & E2 & H). apply parse_type_sound in E2. destruct E2 as [(-> & -> & _)|(NI & j & u & -> & NEu & Dt)].
  - apply FOk_inj in H. injection H as <- <- <-. split; [exact G1|]. destruct o1 as [i|]; [|exact S1].
    destruct S1 as (v & t & Eu & NE & D & T). exists v, t. repeat split; auto. constructor. exact D.
  - assert (H' : match o1 with None => FErr | Some i => alloced Some (EAsc i t) ts2 es1 end = FOk (o, ts', es')) by (destruct t; try exact H; congruence).
    destruct o1 as [i|]; [|discriminate]. apply alloced_ok in H'. destruct H' as (-> & -> & ->). split; [eauto with front|].
    destruct S1 as (v & x & Eu & NE & D & T). exists (v ++ TPunct ":" j :: u), (XAsc x t). rewrite <- app_assoc.
    repeat split; [exact Eu|destruct v; discriminate|constructor; assumption|cbn; exists i; split; [apply at_new|apply tree_at_grow, T]].
Qed.

(** A run of the loop reads some elements; nothing when there is none. *)
Lemma seq_loop_sound fuel : forall acc ts es l ts' es', seq_loop rust_type sub fuel acc ts es = FOk (l, ts', es') -> grows es es' /\
  ((l = acc /\ ts' = ts) \/ exists u js tl, l = acc ++ js /\ ts = u ++ ts' /\ u <> [] /\ d_items rust_type u tl /\ trees_at es' js tl).
Proof.
  induction fuel as [|k IH]; intros acc ts es l ts' es' H; [discriminate|]. cbn [seq_loop] in H.
  apply fbind_ok in H. destruct H as ([[o1 ts1] es1] & E & H). destruct (typed_sound E) as [G1 S1]. destruct o1 as [i|].
  - destruct S1 as (u & t & -> & NE & D & T). apply IH in H. destruct H as [G2 H]. split; [eauto with front|]. right.
    destruct H as [[-> ->]|(v & js & tl & -> & -> & NEv & Dv & Tv)].
    + exists u, [i], [t]. repeat split; auto; [constructor; exact D|exact (tree_grows G2 T)].
    + exists (u ++ v), (i :: js), (t :: tl). rewrite <- !app_assoc. cbn [app]. repeat split; auto.
      * destruct u; [contradiction|discriminate].
      * constructor; assumption.
      * exact (tree_grows G2 T).
  - apply FOk_inj in H. injection H as <- <- <-. split; [exact G1|]. left. auto.
Qed.
Lemma seq_sound fuel : sound (d_seq rust_type) (parse_seq rust_type sub fuel).
Proof.
  intros ts es i ts' es' H. apply fbind_ok in H. destruct H as ([[l ts1] es1] & E & H). apply seq_loop_sound in E. destruct E as [G1 E].
  destruct E as [[-> ->]|(u & js & tl & -> & -> & NE & D & T)]; [discriminate|]. cbn [app] in H.
  pose proof (trees_at_length T) as Ln. destruct js as [|a [|b js]]; [discriminate| |].
  - apply FOk_inj in H. injection H as <- <- <-. split; [exact G1|]. destruct tl as [|t [|]]; try discriminate Ln. cbn in T. destruct T as [T _].
    exists u, t. repeat split; auto. inversion D as [? ? Dt|? ? ? ? ? Dt]; subst; [apply seq_one; exact Dt|inversion Dt].
  - apply alloced_ok in H. destruct H as (-> & -> & ->). split; [eauto with front|]. exists u, (XSeq tl). repeat split; auto.
    + apply seq_many; [exact D|cbn in Ln; lia].
    + cbn [tree_at]. exists (a :: b :: js). split; [apply at_new|]. exact (trees_at_grow [_] T).
Qed.
Lemma spanned_sound fuel : sound (d_spanned rust_type) (parse_spanned_expr rust_type sub fuel).
Proof.
  intros ts es i ts' es' H. unfold parse_spanned_expr in H.
  destruct (eat ["."; "."; "."]%char ts) as [r|] eqn:E3; [|destruct (eat ["."; "."]%char ts) as [r|] eqn:E2].
  - apply eat3 in E3. destruct E3 as (j & ->). apply fbind_ok in H. destruct H as ([[k ts1] es1] & E & H).
    destruct (seq_sound E) as (G1 & u & t & -> & NE & D & T). cbn [alloc] in H. apply alloced_ok in H. destruct H as (-> & -> & ->). split.
    + eapply grows_trans; [exact G1|]. eapply grows_trans; apply grows_one.
    + exists (TPunct "." true :: TPunct "." true :: TPunct "." j :: u), (XRange t). repeat split; [discriminate|constructor; exact D|].
      cbn [tree_at]. exists (length es1), k. split; [apply at_new|]. split.
      * rewrite nth_error_app1 by (rewrite app_length; cbn; lia). apply at_new.
      * apply tree_at_grow, tree_at_grow, T.
  - apply eat2 in E2. destruct E2 as (j & ->). apply fbind_ok in H. destruct H as ([[k ts1] es1] & E & H).
    destruct (seq_sound E) as (G1 & u & t & -> & NE & D & T). apply alloced_ok in H. destruct H as (-> & -> & ->). split; [eauto with front|].
    exists (TPunct "." true :: TPunct "." j :: u), (XSpan t). repeat split; [discriminate|constructor; exact D|].
    cbn [tree_at]. exists k. split; [apply at_new|apply tree_at_grow, T].
  - destruct (seq_sound H) as (G1 & u & t & -> & NE & D & T). split; [exact G1|]. exists u, t. repeat split; auto. constructor. exact D.
Qed.
Lemma branch_sound fuel ts es i ts1 es1 j ts' es' : parse_spanned_expr rust_type sub fuel ts es = FOk (i, ts1, es1) ->
  parse_semantic_action i ts1 es1 = FOk (j, ts', es') -> grows es es' /\ exists u t, ts = u ++ ts' /\ u <> [] /\ d_branch rust_type u t /\ tree_at es' j t.
Proof.
  intros E H. destruct (spanned_sound E) as (G1 & u & t & -> & NE & D & T). unfold parse_semantic_action in H.
  destruct (eat [">"]%char ts1) as [r|] eqn:Ea.
  - apply eat1 in Ea. destruct Ea as (b & ->).
    destruct (match r with TKw s :: r' => if String.eqb s "box" then (true, r') else (false, r) | _ => (false, r) end) as [boxed r'] eqn:Eb.
    assert (Br : (boxed = false /\ r' = r) \/ (boxed = true /\ r = TKw "box" :: r')).
    { destruct r as [|x r0]; [injection Eb as <- <-; auto|]. destruct x; try (injection Eb as <- <-; auto).
      destruct (String.eqb s "box") eqn:Z; injection Eb as <- <-; auto. apply String.eqb_eq in Z. subst. auto. }
    destruct (parse_path r') as [[p q]|] eqn:P; [|discriminate]. apply alloced_ok in H. destruct H as (-> & -> & ->). split; [eauto with front|].
    destruct (parse_path_sound P) as (v & Ev & NEv & Dv). destruct Br as [[-> ->]|[-> ->]]; subst.
    + exists (u ++ TPunct ">" b :: v), (XAct t false p). rewrite <- app_assoc. repeat split; [destruct u; discriminate|constructor; assumption|].
      cbn [tree_at]. exists i. split; [apply at_new|apply tree_at_grow, T].
    + exists (u ++ TPunct ">" b :: TKw "box" :: v), (XAct t true p). rewrite <- app_assoc. repeat split; [destruct u; discriminate|constructor; assumption|].
      cbn [tree_at]. exists i. split; [apply at_new|apply tree_at_grow, T].
  - apply FOk_inj in H. injection H as <- <- <-. split; [exact G1|]. exists u, t. repeat split; auto. constructor. exact D.
Qed.
Lemma choice_loop_sound fuel sfuel : forall acc ts es l ts' es', choice_loop rust_type sub fuel sfuel acc ts es = FOk (l, ts', es') -> grows es es' /\
  exists u js tl, l = acc ++ js /\ ts = u ++ ts' /\ u <> [] /\ d_branches rust_type u tl /\ trees_at es' js tl.
Proof.
  induction fuel as [|k IH]; intros acc ts es l ts' es' H; [discriminate|]. cbn [choice_loop] in H.
  apply fbind_ok in H. destruct H as ([[i ts1] es1] & E & H). apply fbind_ok in H. destruct H as ([[j ts2] es2] & E2 & H).
  destruct (branch_sound E E2) as (G1 & u & t & -> & NE & D & T). destruct (eat ["/"]%char ts2) as [r|] eqn:Es.
  - apply eat1 in Es. destruct Es as (b & ->). apply IH in H. destruct H as (G2 & v & js & tl & -> & -> & NEv & Dv & Tv). split; [eauto with front|].
    exists (u ++ TPunct "/" b :: v), (j :: js), (t :: tl). rewrite <- !app_assoc. cbn [app]. repeat split; auto.
    + destruct u; discriminate.
    + constructor; assumption.
    + exact (tree_grows G2 T).
  - apply FOk_inj in H. injection H as <- <- <-. split; [exact G1|]. exists u, [j], [t]. repeat split; auto. constructor. exact D.
Qed.
Lemma level_sound fuel : sound d_choice (choice_level rust_type sub fuel).
Proof.
  intros ts es i ts' es' H. apply fbind_ok in H. destruct H as ([[l ts1] es1] & E & H). apply choice_loop_sound in E.
  destruct E as (G1 & u & js & tl & -> & -> & NE & D & T). cbn [app] in H. pose proof (trees_at_length T) as Ln.
  destruct js as [|a [|b js]].
  - destruct tl; [|discriminate]. inversion D.
  - apply FOk_inj in H. injection H as <- <- <-. split; [exact G1|]. destruct tl as [|t [|]]; try discriminate Ln. cbn in T. destruct T as [T _].
    exists u, t. repeat split; auto. inversion D as [? ? Dt|? ? ? ? ? ? Dt]; subst; [apply choice_one; exact Dt|inversion Dt].
  - apply alloced_ok in H. destruct H as (-> & -> & ->). split; [eauto with front|]. exists u, (XAlt tl). repeat split; auto.
    + apply choice_alt; [exact D|cbn in Ln; lia].
    + cbn [tree_at]. exists (a :: b :: js). split; [apply at_new|]. exact (trees_at_grow [_] T).
Qed.
End Level.

Lemma choice_sound fuel : forall depth, sound d_choice (parse_rule_choice rust_type depth fuel).
Proof. induction depth as [|d IH]; [intros ts es i ts' es' H; discriminate|]. apply level_sound, IH. Qed.

Lemma rule_sound fuel ts es rl ts' es' : parse_rule rust_type fuel ts es = FOk (rl, ts', es') -> grows es es' /\
  exists u t, ts = u ++ ts' /\ u <> [] /\ d_block rust_type rust_item u (BRule (rname rl) t) /\ tree_at es' (rexpr rl) t.
Proof.
  intros H. unfold parse_rule in H. destruct ts as [|[] r]; try discriminate.
  apply fbind_ok in H. destruct H as ([t r1] & E & H). destruct (eat ["="]%char r1) as [r2|] eqn:Ea; [|discriminate]. apply eat1 in Ea. destruct Ea as (j & ->).
  apply fbind_ok in H. destruct H as ([[i ts1] es1] & E1 & H). destruct (choice_sound E1) as (G1 & v & x & -> & NEv & D & T).
  apply parse_type_sound in E. destruct E as [(-> & <- & _)|(NI & j' & u & -> & NEu & Dt)].
  - apply FOk_inj in H. injection H as <- <- <-. split; [exact G1|]. exists (TId s :: TPunct "=" j :: v), x. repeat split; [discriminate|constructor; exact D|exact T].
  - assert (H' : alloced (fun b => mkRule s b) (EAsc i t) ts1 es1 = FOk (rl, ts', es')) by (destruct t; try exact H; congruence).
    apply alloced_ok in H'. destruct H' as (-> & -> & ->). split; [eauto with front|].
    exists (TId s :: TPunct ":" j' :: u ++ TPunct "=" j :: v), (XAsc x t). cbn [rname rexpr]. split; [cbn; rewrite <- app_assoc; reflexivity|].
    repeat split; [discriminate|constructor; assumption|]. cbn [tree_at]. exists i. split; [apply at_new|apply tree_at_grow, T].
Qed.

Lemma attrs_sound fuel : forall acc ts l ts', parse_attrs fuel acc ts = FOk (l, ts') ->
  exists u l', ts = u ++ ts' /\ l = acc ++ l' /\ d_attrs u l'.
Proof.
  induction fuel as [|k IH]; intros acc ts l ts' H; [discriminate|]. cbn [parse_attrs] in H.
  assert (NIL : FOk (acc, ts) = FOk (l, ts') -> exists u l', ts = u ++ ts' /\ l = acc ++ l' /\ d_attrs u l').
  { intros E. apply FOk_inj in E. injection E as <- <-. exists [], []. rewrite app_nil_r. repeat split. constructor. }
  destruct (eat ["#"]%char ts) as [r|] eqn:E1; [|exact (NIL H)]. destruct (eat ["!"]%char r) as [q|] eqn:E2; [|exact (NIL H)].
  apply eat1 in E1, E2. destruct E1 as (j1 & ->). destruct E2 as (j2 & ->).
  destruct q as [|x q]; [discriminate|]. destruct x; try discriminate. destruct d; try discriminate.
  destruct (parse_path l0) as [[p g]|] eqn:P; [|discriminate]. destruct (parse_path_sound P) as (u & -> & _ & D).
  apply IH in H. destruct H as (v & l' & -> & -> & Dv). exists (TPunct "#" j1 :: TPunct "!" j2 :: TGroup Bracket (u ++ g) :: v), (p :: l').
  rewrite <- app_assoc. repeat split. constructor; assumption.
Qed.

Lemma rules_at_grows es es' rs l : grows es es' -> rules_at es rs l -> rules_at es' rs l.
Proof. intros G H. induction H as [|r q rs l [A B] _ IH]; constructor; auto. split; [exact A|exact (tree_grows G B)]. Qed.

Lemma blocks_sound fuel inner : forall ts g g', parse_blocks rust_type rust_item fuel inner ts g = FOk g' -> grows (f_exprs g) (f_exprs g') /\
  exists at_ bs rs, d_grammar rust_type rust_item ts at_ bs /\ f_attrs g' = f_attrs g ++ at_ /\ f_items g' = f_items g ++ block_items bs /\
    f_rules g' = f_rules g ++ rs /\ rules_at (f_exprs g') rs (block_rules bs).
Proof.
  induction fuel as [|k IH]; intros ts g g' H; [discriminate|]. cbn [parse_blocks] in H.
  destruct ts as [|t0 ts0].
  { apply FOk_inj in H. subst. split; [apply grows_refl|]. exists [], [], []. rewrite !app_nil_r. repeat split; constructor. }
  set (ts := t0 :: ts0) in *. clearbody ts.
  apply fbind_ok in H. destruct H as ([at_ ts1] & E & H). cbn [f_exprs f_rules f_items f_attrs] in H.
  apply attrs_sound in E. destruct E as (u & l' & -> & -> & Du). cbn [app] in H.
  destruct (peek_rule_lhs rust_type ts1).
  - apply fbind_ok in H. destruct H as ([[rl ts2] es] & E2 & H). destruct (rule_sound E2) as (G1 & v & t & -> & _ & Dv & T).
    apply IH in H. cbn [f_exprs f_rules f_items f_attrs] in H. destruct H as (G2 & at2 & bs & rs & D & A1 & A2 & A3 & A4). split; [eauto with front|].
    exists (l' ++ at2), (BRule (rname rl) t :: bs), (rl :: rs). split; [constructor; assumption|]. rewrite A1, A2, A3, <- !app_assoc. repeat split.
    cbn [block_rules flat_map app]. constructor; [|exact A4]. split; [reflexivity|exact (tree_grows G2 T)].
  - destruct (rust_item ts1) as [[it ts2]|] eqn:Ei; [|discriminate]. apply IH in H. cbn [f_exprs f_rules f_items f_attrs] in H.
    destruct (item_reads Ei) as (v & _ & ->). destruct H as (G2 & at2 & bs & rs & D & A1 & A2 & A3 & A4). split; [exact G2|].
    exists (l' ++ at2), (BItem it :: bs), rs. split.
    + constructor; [exact Du| |exact D]. econstructor. exact Ei.
    + rewrite A1, A2, A3, <- !app_assoc. repeat split. exact A4.
Qed.

Theorem grammar_sound ts g : parse_grammar rust_type rust_item ts = FOk g ->
  exists bs, d_grammar rust_type rust_item ts (f_attrs g) bs /\ f_items g = block_items bs /\ rules_at (f_exprs g) (f_rules g) (block_rules bs).
Proof.
  intros H. apply blocks_sound in H. destruct H as (_ & at_ & bs & rs & D & A1 & A2 & A3 & A4). cbn in A1, A2, A3. exists bs. rewrite A1, A2, A3. auto.
Qed.

(** ---------------- termination ---------------- *)
Definition total (A : Type) (n : nat) (f : list tok -> list expr -> fres (A * list tok * list expr)) : Prop :=
  forall ts es, toks_size ts < n -> f ts es <> FLoop.
Lemma fbind_total A B (r : fres A) (k : A -> fres B) : r <> FLoop -> (forall a, r = FOk a -> k a <> FLoop) -> fbind r k <> FLoop.
Proof. destruct r; intros H K; cbn; [apply K; reflexivity|discriminate|congruence]. Qed.
Lemma alloced_total A (f : nat -> A) e ts es : alloced f e ts es <> FLoop. Proof. discriminate. Qed.
Lemma parse_type_total ts : parse_type' ts <> FLoop.
Proof.
  unfold Front.parse_type', Front.parse_type. destruct (eat _ ts) as [q|]; [|discriminate].
  assert (R : forall b : bool, fbind match rust_type q with Some (s, r') => FOk (IRegular (TRust s), r', true) | None => FErr end
    (fun q => let '(t, r, clean) := q in if clean then FOk (t, r) else FErr) <> FLoop) by (intros _; destruct (rust_type q) as [[]|]; discriminate).
  destruct q as [|k q']; [exact (R true)|]. destruct k; try exact (R true). destruct d; try exact (R true). destruct l as [|g0 g]; [discriminate|].
  destruct (eat _ (g0 :: g)) as [[|]|]; [discriminate|discriminate|exact (R true)].
Qed.

Section LevelTotal.
Variable sub : list tok -> list expr -> fres (nat * list tok * list expr).
Hypothesis Hsub : sound d_choice sub.
Variable m : nat.
Hypothesis Tsub : total m sub.

Lemma atom_total : total (S m) (parse_rule_atom rust_type sub).
Proof.
  intros ts es L. unfold parse_rule_atom.
  assert (PP : atom_tail rust_type ts es <> FLoop).
  { unfold atom_tail. destruct (parse_path ts) as [[p r]|]; [destruct (peek_rule_lhs _ ts); discriminate|].
    assert (END : (if peek ["."; "."]%char ts then FErr else FOk (@None nat, ts, es)) <> FLoop) by (destruct (peek _ ts); discriminate).
    destruct ts as [|t r]; [exact END|]. destruct t; try exact END. destruct d; try exact END.
    destruct l as [|[] [|]]; try discriminate. apply fbind_total; [apply class_total|intros; apply alloced_total]. }
  assert (M : atom_group rust_type sub ts es <> FLoop).
  { unfold atom_group. destruct ts as [|t r]; [exact PP|]. destruct t; try exact PP. destruct d; try exact PP. clear PP.
    destruct l as [|g0 g]; [discriminate|]. apply fbind_total.
    - apply Tsub. cbn [toks_size] in L. rewrite group_size in L. lia.
    - intros [[i g'] es1] _. destruct g'; discriminate. }
  assert (M' : match eat ["."]%char ts with Some r => alloced Some EAny r es | None => atom_group rust_type sub ts es end <> FLoop)
    by (destruct (eat ["."]%char ts); [discriminate|exact M]).
  destruct ts as [|t r]; [exact M'|]. destruct t; try exact M'. discriminate.
Qed.
Lemma suffixed_total : total (S m) (parse_suffixed_expr rust_type sub).
Proof.
  intros ts es L. apply fbind_total; [apply atom_total, L|]. intros [[o ts1] es1] _. destruct o; [|discriminate].
  destruct (eat ["*"]%char ts1); [discriminate|]. destruct (eat ["+"]%char ts1); [discriminate|]. destruct (eat ["?"]%char ts1); discriminate.
Qed.
Lemma prefixed_total : total (S m) (parse_prefixed_expr rust_type sub).
Proof.
  intros ts es L. unfold parse_prefixed_expr. destruct (eat ["!"]%char ts) as [r|] eqn:E.
  - apply eat1 in E. destruct E as (j & ->). cbn in L. apply fbind_total; [apply suffixed_total; lia|]. intros [[[o|] ts1] es1] _; discriminate.
  - destruct (eat ["&"]%char ts) as [r|] eqn:E'; [|apply suffixed_total, L].
    apply eat1 in E'. destruct E' as (j & ->). cbn in L. apply fbind_total; [apply suffixed_total; lia|]. intros [[[o|] ts1] es1] _; discriminate.
Qed.
Lemma typed_total : total (S m) (parse_typed_expr rust_type sub).
Proof.
  intros ts es L. apply fbind_total; [apply prefixed_total, L|]. intros [[o ts1] es1] _. apply fbind_total; [apply parse_type_total|].
  intros [t ts2] _. destruct t; try discriminate; destruct o; discriminate.
Qed.
Lemma seq_loop_total fuel : forall acc ts es, toks_size ts < fuel -> toks_size ts < S m -> seq_loop rust_type sub fuel acc ts es <> FLoop.
Proof.
  induction fuel as [|k IH]; intros acc ts es L1 L2; [lia|]. cbn [seq_loop]. apply fbind_total; [apply typed_total, L2|].
  intros [[o ts1] es1] E. destruct o as [i|]; [|discriminate]. apply (typed_sound Hsub) in E. destruct E as (_ & u & t & -> & NE & _).
  rewrite toks_app in L1, L2. pose proof (toks_pos NE). apply IH; lia.
Qed.
Lemma seq_total fuel : forall ts es, toks_size ts < fuel -> toks_size ts < S m -> parse_seq rust_type sub fuel ts es <> FLoop.
Proof. intros ts es L1 L2. apply fbind_total; [apply seq_loop_total; assumption|]. intros [[l ts1] es1] _. destruct l as [|? [|]]; discriminate. Qed.
Lemma spanned_total fuel : forall ts es, toks_size ts < fuel -> toks_size ts < S m -> parse_spanned_expr rust_type sub fuel ts es <> FLoop.
Proof.
  intros ts es L1 L2. unfold parse_spanned_expr. destruct (eat ["."; "."; "."]%char ts) as [r|] eqn:E3; [|destruct (eat ["."; "."]%char ts) as [r|] eqn:E2].
  - apply eat3 in E3. destruct E3 as (j & ->). cbn in L1, L2. apply fbind_total; [apply seq_total; lia|]. intros [[l ts1] es1] _. discriminate.
  - apply eat2 in E2. destruct E2 as (j & ->). cbn in L1, L2. apply fbind_total; [apply seq_total; lia|]. intros [[l ts1] es1] _. discriminate.
  - apply seq_total; assumption.
Qed.
Lemma choice_loop_total sfuel fuel : forall acc ts es, toks_size ts < fuel -> toks_size ts < sfuel -> toks_size ts < S m -> choice_loop rust_type sub fuel sfuel acc ts es <> FLoop.
Proof.
  induction fuel as [|k IH]; intros acc ts es L1 L3 L2; [lia|]. cbn [choice_loop]. apply fbind_total; [apply spanned_total; lia|].
  intros [[i ts1] es1] E. apply fbind_total.
  - unfold parse_semantic_action. destruct (eat [">"]%char ts1) as [r|]; [|discriminate].
    destruct (match r with TKw s :: r' => if String.eqb s "box" then (true, r') else (false, r) | _ => (false, r) end) as [boxed r'].
    destruct (parse_path r') as [[p q]|]; discriminate.
  - intros [[j ts2] es2] E2. destruct (branch_sound Hsub E E2) as (_ & u & t & -> & NE & _). pose proof (toks_pos NE). rewrite toks_app in L1, L2, L3.
    destruct (eat ["/"]%char ts2) as [r|] eqn:Es; [|discriminate]. apply eat1 in Es. destruct Es as (b & ->). cbn in L1, L2, L3. apply IH; lia.
Qed.
Lemma level_total fuel ts es : toks_size ts < fuel -> toks_size ts < S m -> choice_level rust_type sub fuel ts es <> FLoop.
Proof. intros L1 L2. apply fbind_total; [apply choice_loop_total; assumption|]. intros [[l ts1] es1] _. destruct l as [|? [|]]; discriminate. Qed.
End LevelTotal.

Lemma choice_total fuel : forall depth ts es, toks_size ts < fuel -> toks_size ts < depth -> parse_rule_choice rust_type depth fuel ts es <> FLoop.
Proof.
  enough (A : forall depth, depth <= fuel -> total depth (parse_rule_choice rust_type depth fuel)).
  { intros depth ts es L1 L2. destruct (Nat.le_gt_cases depth fuel) as [L|L]; [apply (A depth L); lia|].
    assert (B : forall k, total fuel (parse_rule_choice rust_type (fuel + k) fuel)).
    { induction k as [|k IH]; [rewrite Nat.add_0_r; apply A; lia|]. rewrite Nat.add_succ_r. intros ts' es' L'. cbn [parse_rule_choice].
      apply (@level_total (parse_rule_choice rust_type (fuel + k) fuel) (@choice_sound _ _) fuel IH); lia. }
    replace depth with (fuel + (depth - fuel)) by lia. apply B. lia. }
  induction depth as [|d IH]; intros Ld ts es L; [lia|]. cbn [parse_rule_choice].
  apply (@level_total (parse_rule_choice rust_type d fuel) (@choice_sound _ _) d (IH ltac:(lia))); lia.
Qed.
Lemma rule_total fuel ts es : toks_size ts < fuel -> parse_rule rust_type fuel ts es <> FLoop.
Proof.
  intros L. unfold parse_rule. destruct ts as [|[] r]; try discriminate. apply fbind_total; [apply parse_type_total|]. intros [t r1] E.
  destruct (eat ["="]%char r1) as [r2|] eqn:Ea; [|discriminate]. apply eat1 in Ea. destruct Ea as (j & ->). apply fbind_total.
  - apply parse_type_sound in E. cbn in L. destruct E as [(_ & <- & _)|(_ & j' & u & -> & _ & _)]; [cbn in L; apply choice_total; lia|].
    cbn in L. rewrite toks_app in L. cbn in L. apply choice_total; lia.
  - intros [[i ts1] es1] _. destruct t; discriminate.
Qed.
Lemma attrs_total fuel : forall acc ts, toks_size ts < fuel -> parse_attrs fuel acc ts <> FLoop.
Proof.
  induction fuel as [|k IH]; intros acc ts L; [lia|]. cbn [parse_attrs]. destruct (eat ["#"]%char ts) as [r|] eqn:E1; [|discriminate].
  destruct (eat ["!"]%char r) as [q|] eqn:E2; [|discriminate]. apply eat1 in E1, E2. destruct E1 as (j1 & ->). destruct E2 as (j2 & ->).
  destruct q as [|x q]; [discriminate|]. destruct x; try discriminate. destruct d; try discriminate. destruct (parse_path l) as [[p g]|]; [|discriminate].
  apply IH. cbn [toks_size] in L. rewrite group_size in L. cbn in L. lia.
Qed.
Lemma blocks_total fuel inner : forall ts g, toks_size ts < fuel -> toks_size ts < inner -> parse_blocks rust_type rust_item fuel inner ts g <> FLoop.
Proof.
  induction fuel as [|k IH]; intros ts g L1 L2; [lia|]. cbn [parse_blocks]. destruct ts as [|t0 ts0]; [discriminate|]. set (ts := t0 :: ts0) in *. clearbody ts.
  apply fbind_total; [apply attrs_total, L2|]. intros [at_ ts1] E. apply attrs_sound in E. destruct E as (u & l' & -> & _ & _). rewrite toks_app in L1, L2.
  destruct (peek_rule_lhs rust_type ts1).
  - apply fbind_total; [apply rule_total; lia|]. intros [[rl ts2] es] E. apply rule_sound in E. destruct E as (_ & v & t & -> & NE & _).
    rewrite toks_app in L1, L2. pose proof (toks_pos NE). apply IH; lia.
  - destruct (rust_item ts1) as [[it ts2]|] eqn:Ei; [|discriminate]. destruct (item_reads Ei) as (v & NE & ->).
    rewrite toks_app in L1, L2. pose proof (toks_pos NE). apply IH; lia.
Qed.
Theorem grammar_total ts : parse_grammar rust_type rust_item ts <> FLoop.
Proof. unfold parse_grammar. apply blocks_total; lia. Qed.
End Sound.
