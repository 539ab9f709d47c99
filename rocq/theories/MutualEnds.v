(** Modules that call each other: when runs end. *)
From Coq Require Import Relations.
From Verif Require Import Base Utf8 Grammar CharClass PegSpec PropertiesGen FrontSpec TreeSpec TreeFacts TreeValues WfSound TreeWf Target PegFacts Linking Mutual.
Set Implicit Arguments. Unset Strict Implicit.
Open Scope string_scope. Open Scope nat_scope. Open Scope list_scope.

(** ---------------- specification ---------------- *)
Section Spec.
Variable srcs : list (list string * source).
(** In the module of rules [rs], [p] is the rule [e] of the module of rules [rs']. *)
Inductive means (rs : list (string * tree)) (p : list string) : list (string * tree) -> tree -> Prop :=
| me_here e : rule_called rs p = Some e -> means rs p rs e
| me_there rs' void n e : rule_called rs p = None -> member srcs p (rs', void) n -> In (n, e) rs' -> means rs p rs' e.
(** May succeed without consuming; the functions outside of all modules are taken to consume. *)
Inductive empty_in : list (string * tree) -> tree -> Prop :=
| ei_str rs : empty_in rs (XStr [])
| ei_call rs p rs' e : means rs p rs' e -> empty_in rs' e -> empty_in rs (XCall p)
| ei_seq rs l : all_empty_in rs l -> empty_in rs (XSeq l)
| ei_alt rs l t : In t l -> empty_in rs t -> empty_in rs (XAlt l)
| ei_star rs t : empty_in rs (XStar t)
| ei_opt rs t : empty_in rs (XOpt t)
| ei_plus rs t : empty_in rs t -> empty_in rs (XPlus t)
| ei_not rs t : empty_in rs (XNot t)
| ei_and rs t : empty_in rs (XAnd t)
| ei_same rs t u : transparent t = Some u -> empty_in rs u -> empty_in rs t
with all_empty_in : list (string * tree) -> list tree -> Prop :=
| aei_nil rs : all_empty_in rs []
| aei_cons rs t l : empty_in rs t -> all_empty_in rs l -> all_empty_in rs (t :: l).
(** May call a rule before consuming anything. *)
Inductive first_in (rs : list (string * tree)) : tree -> list (string * tree) * tree -> Prop :=
| fi_call p rs' e : means rs p rs' e -> first_in rs (XCall p) (rs', e)
| fi_seq l1 t l2 q : all_empty_in rs l1 -> first_in rs t q -> first_in rs (XSeq (l1 ++ t :: l2)) q
| fi_alt l t q : In t l -> first_in rs t q -> first_in rs (XAlt l) q
| fi_un t u q : (forall l, t <> XSeq l) -> (forall l, t <> XAlt l) -> In u (operands t) -> first_in rs u q -> first_in rs t q.
(** Runs end: no rule reaches itself without consuming, through whichever modules, and what is repeated consumes. *)
Record modules_end : Prop := {
  me_left : forall path rs void n e, In (path, (rs, void)) srcs -> In (n, e) rs -> ~ clos_trans _ (fun a b => first_in (fst a) (snd a) b) (rs, e) (rs, e);
  me_repeat : forall path rs void t, In (path, (rs, void)) srcs -> part rs (XStar t) \/ part rs (XPlus t) -> ~ empty_in rs t
}.
(** The paths that name a module name one of its rules. *)
Definition links_resolve : Prop := forall path rs void p rs' void' n, In (path, (rs, void)) srcs -> part rs (XCall p) -> rule_called rs p = None -> member srcs p (rs', void') n -> In n (map fst rs').
(** Which expressions have no value is settled, and predicates have none. *)
Definition voids_settled : Prop := forall path rs void t, In (path, (rs, void)) srcs -> part rs t -> (void t \/ ~ void t) /\ forall u, t = XNot u \/ t = XAnd u -> void t.
End Spec.
Scheme empty_in_mind := Minimality for empty_in Sort Prop with all_empty_in_mind := Minimality for all_empty_in Sort Prop.

(** ---------------- no cycle in a finite graph ---------------- *)
Lemma no_cycle_acc (A : Type) (R : A -> A -> Prop) (D : list A) : (forall a b, R a b -> In b D) -> (forall a, ~ clos_trans A R a a) -> forall a, Acc (fun b a => R a b) a.
Proof.
  intros HD NC.
  assert (K : forall n V a, NoDup V -> incl V D -> In a D -> (forall v, In v V -> clos_trans A R v a) -> length D <= length V + n -> Acc (fun b a => R a b) a).
  { induction n as [|n IH]; intros V a NV IV Ia RV L.
    - exfalso. assert (NA : NoDup (a :: V)) by (constructor; [intros H; exact (NC a (RV a H))|exact NV]).
      pose proof (NoDup_incl_length NA (incl_cons Ia IV)) as Q. cbn [length] in Q. lia.
    - constructor. intros b Rab. assert (NA : NoDup (a :: V)) by (constructor; [intros H; exact (NC a (RV a H))|exact NV]).
      apply (IH (a :: V)); [exact NA|exact (incl_cons Ia IV)|exact (HD _ _ Rab)| |cbn [length]; lia].
      intros v [<-|Iv]; [apply t_step, Rab|]. eapply t_trans; [exact (RV v Iv)|apply t_step, Rab]. }
  intros a. constructor. intros b Rab. apply (K (length D) [] b); [constructor|intros x []|exact (HD _ _ Rab)|intros v []|cbn; lia].
Qed.

Lemma str_or (lit : text) : forall s, (exists rest, s = lit ++ rest) \/ forall rest, s <> lit ++ rest.
Proof.
  induction lit as [|c lit IH]; intros s; [left; exists s; reflexivity|]. destruct s as [|d s]; [right; discriminate|]. destruct (N.eq_dec c d) as [->|NE]; [|right; intros rest E; injection E as E _; congruence].
  destruct (IH s) as [(rest & ->)|NR]; [left; exists rest; reflexivity|right; intros rest E; injection E as E; exact (NR rest E)].
Qed.
Lemma class_or a b c d : denotes a b c d \/ ~ denotes a b c d.
Proof.
  rewrite <- in_class_items. apply class_dec.
Qed.
Section Total.
Variables (srcs : list (list string * source)) (X0 : extern) (off : text -> nat).
Local Notation across := (across srcs X0 off).
Local Notation means := (means srcs).
Local Notation empty_in := (empty_in srcs).
Local Notation all_empty_in := (all_empty_in srcs).
Local Notation first_in := (first_in srcs).
(** The functions outside of all modules consume. *)
Hypothesis XC : forall m p s s1 vs evs, X0 m p s (Some (s1, vs)) evs -> length s1 < length s.

(** The rest of a match is the whole text or shorter. *)
Definition left_of (s s1 : text) : Prop := s1 = s \/ length s1 < length s.

(** ---------------- what matches without consuming ---------------- *)
Definition item_empty (rs : list (string * tree)) (it : titem) : Prop :=
  match it with TE t => empty_in rs t | TSeq l => all_empty_in rs l | TAlt l => exists t, In t l /\ empty_in rs t | TStar _ => True end.
Definition shrinks : extern := fun m p s r evs => forall s1 vs, r = Some (s1, vs) -> left_of s s1 /\ (s1 = s -> forall rs, rule_called rs p = None -> empty_in rs (XCall p)).
Lemma same_pre (A : Type) (pre s : list A) : s = pre ++ s -> pre = [].
Proof. intros H. apply (f_equal (@length A)) in H. rewrite app_length in H. destruct pre; [reflexivity|cbn in H; lia]. Qed.
Lemma both_same s s1 s2 : left_of s s1 -> left_of s1 s2 -> s2 = s -> s1 = s.
Proof. intros [->|L] [->|L']; intros E; subst; try reflexivity; lia. Qed.
Lemma pre_trans s s1 s2 : left_of s s1 -> left_of s1 s2 -> left_of s s2.
Proof. unfold left_of. intros [->|L] [->|L']; auto. right. lia. Qed.
Lemma left_app (pre s : text) : left_of (pre ++ s) s.
Proof. destruct pre as [|c pre]; [left; reflexivity|right]. cbn. rewrite app_length. lia. Qed.
Lemma tep_shrinks (X : extern) rs void m it s r evs : (forall m p s r evs, X m p s r evs -> shrinks m p s r evs) -> tep rs X off void m it s r evs -> forall s1 vs, r = Some (s1, vs) -> left_of s s1 /\ (s1 = s -> item_empty rs it).
Proof.
  intros SX. induction 1; intros q ws Q; try discriminate Q; try (injection Q as <- <-); cbn [item_empty] in *.
  - eauto.
  - split; [apply left_app|]. intros E. assert (lit = []) as -> by (apply (@same_pre _ lit rest); congruence). constructor.
  - split; [right; cbn; lia|]. intros E. apply (f_equal (@length _)) in E. cbn in E. lia.
  - split; [right; cbn; lia|]. intros E. apply (f_equal (@length _)) in E. cbn in E. lia.
  - destruct (IHtep _ _ Q) as [A B]. split; [exact A|]. intros E. econstructor; [apply me_here; eassumption|exact (B E)].
  - destruct (SX _ _ _ _ _ H1 _ _ Q) as [A B]. split; [exact A|]. intros E. exact (B E rs H0).
  - destruct (IHtep _ _ Q) as [A B]. split; [exact A|]. intros E. constructor. exact (B E).
  - destruct (IHtep _ _ Q) as [A B]. split; [exact A|]. intros E. destruct (B E) as (t & It & Et). econstructor; eassumption.
  - destruct (IHtep _ _ eq_refl) as [A B]. split; [exact A|]. constructor.
  - destruct (IHtep1 _ _ eq_refl) as [A B], (IHtep2 _ _ eq_refl) as [A' B']. split; [exact (pre_trans A A')|]. intros E. constructor. apply B. exact (both_same A A' E).
  - destruct (IHtep _ _ eq_refl) as [A B]. split; [exact A|]. constructor.
  - split; [left; reflexivity|]. constructor.
  - split; [left; reflexivity|]. constructor.
  - split; [left; reflexivity|]. constructor.
  - destruct (IHtep _ _ Q) as [A B]. split; [exact A|]. intros E. eapply ei_same; [reflexivity|exact (B E)].
  - destruct (IHtep _ _ eq_refl) as [A B]. split; [exact A|]. intros E. eapply ei_same; [reflexivity|exact (B E)].
  - destruct (IHtep _ _ Q) as [A B]. split; [exact A|]. intros E. eapply ei_same; [reflexivity|exact (B E)].
  - destruct (IHtep _ _ Q) as [A B]. split; [exact A|]. intros E. eapply ei_same; [reflexivity|exact (B E)].
  - destruct (IHtep _ _ eq_refl) as [A B]. split; [exact A|]. intros E. eapply ei_same; [reflexivity|exact (B E)].
  - destruct (IHtep _ _ Q) as [A B]. split; [exact A|]. intros E. eapply ei_same; [reflexivity|exact (B E)].
  - destruct (IHtep _ _ eq_refl) as [A B]. split; [exact A|]. intros E. eapply ei_same; [reflexivity|exact (B E)].
  - split; [left; reflexivity|]. constructor.
  - destruct (IHtep1 _ _ eq_refl) as [A B], (IHtep2 _ _ eq_refl) as [A' B']. split; [exact (pre_trans A A')|]. intros E. pose proof (both_same A A' E) as E1. constructor; [exact (B E1)|]. apply B'. congruence.
  - destruct r as [s1 vs]. destruct (IHtep _ _ eq_refl) as [A B]. injection Q as <- <-. split; [exact A|]. intros E. exists t. split; [left; reflexivity|exact (B E)].
  - destruct (IHtep2 _ _ Q) as [A B]. split; [exact A|]. intros E. destruct (B E) as (t' & It & Et). exists t'. split; [right; exact It|exact Et].
  - split; [left; reflexivity|]. exact (fun _ => I).
  - destruct (IHtep1 _ _ eq_refl) as [A B], (IHtep2 _ _ eq_refl) as [A' B']. split; [exact (pre_trans A A')|]. exact (fun _ => I).
Qed.
Lemma across_shrinks m p s r evs : across m p s r evs -> shrinks m p s r evs.
Proof.
  revert m p s r evs. apply across_least.
  - intros m p s r evs rs void n e M I0 T s1 vs Q. assert (Q' : exists vs', r = Some (s1, vs')).
    { destruct m; cbn [one_value] in Q; [exists vs; exact Q|]. destruct r as [[a b]|]; [|discriminate]. cbn in Q. injection Q as <- _. eauto. }
    destruct Q' as (vs' & ->). destruct (tep_shrinks (fun m p s r evs H => H) T eq_refl) as [A B]. split; [exact A|]. intros E rs' NC. eapply ei_call; [eapply me_there; eassumption|exact (B E)].
  - intros m p s r evs N X s1 vs ->. pose proof (XC X) as L. split; [right; exact L|]. intros ->. lia.
Qed.
Lemma tep_rest rs void m it s s1 vs evs : tep rs across off void m it s (Some (s1, vs)) evs -> left_of s s1 /\ (s1 = s -> item_empty rs it).
Proof. intros T. exact (tep_shrinks across_shrinks T eq_refl). Qed.

(** ---------------- every run ends ---------------- *)
Variable md : mode -> Prop.
Hypothesis MD : md Rec.
Hypothesis XT : forall m p s, md m -> (forall a n, ~ member srcs p a n) -> exists r evs, X0 m p s r evs.
Hypothesis ME : modules_end srcs.
Hypothesis LR : links_resolve srcs.
Hypothesis VO : md Par -> voids_settled srcs.

Definition tot (q : source) (it : titem) (s : text) : Prop := forall m, md m -> exists r evs, tep (fst q) across off (snd q) m it s r evs.
Section Module.
Variables (path : list string) (q : source).
Hypothesis IQ : In (path, q) srcs.
Notation rs := (fst q).
Notation void := (snd q).
Lemma tot_valued t s : part rs t -> (forall m, md m -> valued void m t -> (forall u, t <> XNot u) \/ m = Rec -> (forall u, t <> XAnd u) \/ m = Rec -> exists r evs, tep rs across off void m (TE t) s r evs) -> tot q (TE t) s.
Proof.
  intros P H. assert (R : exists r evs, tep rs across off void Rec (TE t) s r evs) by (apply H; [exact MD|exact I|right; reflexivity|right; reflexivity]).
  intros [|] Mm; [exact R|]. pose proof IQ as IQ'. destruct q as [rs0 void0]. destruct (VO Mm IQ' P) as ([V|V] & PR).
  - destruct R as (r & evs & R). exists r, evs. apply te_void; assumption.
  - apply H; [exact Mm|exact V| |]; left; intros u ->; apply V; eapply PR; [left|right]; reflexivity.
Qed.
Lemma tseq_all l : forall s, (forall t s', In t l -> length s' <= length s -> tot q (TE t) s') -> tot q (TSeq l) s.
Proof.
  induction l as [|t l IH]; intros s H m Mm; [exists (Some (s, [])), []; constructor|].
  destruct (H t s (or_introl eq_refl) (le_n _) m Mm) as ([[s1 vs]|] & evs & T); [|eexists _, _; apply te_seq_fail; exact T].
  assert (L : length s1 <= length s) by (destruct (tep_rest T) as ([->|L] & _); lia).
  destruct (IH s1) with (m := m) as ([[s2 vs2]|] & evs2 & T2); [|exact Mm|eexists _, _; eapply te_seq_cons_ok; eassumption|eexists _, _; eapply te_seq_cons_fail; eassumption].
  intros t' s' I0 L'. apply H; [right; exact I0|lia].
Qed.
Lemma tstar_all t : ~ empty_in rs t -> forall n s, length s <= n -> (forall s', length s' <= length s -> tot q (TE t) s') -> tot q (TStar t) s.
Proof.
  intros NE. induction n as [|n IH]; intros s L H m Mm; destruct (H s (le_n _) m Mm) as ([[s1 vs]|] & evs & T); try (eexists _, _; apply te_star_stop; exact T).
  - exfalso. apply NE. apply (proj2 (tep_rest T)). destruct (tep_rest T) as ([Q|Q] & _); [exact Q|lia].
  - assert (L1 : length s1 < length s).
    { destruct (tep_rest T) as ([Q|Q] & E); [destruct (NE (E Q))|exact Q]. }
    destruct (IH s1) with (m := m) as (r2 & evs2 & T2); [lia|intros s' L'; apply H; lia|exact Mm|]. destruct r2 as [[s2 vs2]|]; [|inversion T2]. eexists _, _. eapply te_star_more; eassumption.
Qed.
End Module.
Lemma part_child rs t u : part rs t -> In u (operands t) -> part rs u.
Proof.
  intros (n & e & I0 & W) I1. exists n, e. split; [exact I0|]. clear I0. induction W as [t|t v w I2 W IH]; [eapply wi_step; [exact I1|apply wi_refl]|]. eapply wi_step; [exact I2|exact (IH I1)].
Qed.
Section Front.
Variable s : text.
Hypothesis SH : forall s', length s' < length s -> forall path q t, In (path, q) srcs -> part (fst q) t -> tot q (TE t) s'.
Section One.
Variables (path : list string) (q : source).
Hypothesis IQ : In (path, q) srcs.
Notation rs := (fst q).
Notation void := (snd q).
Definition front (t : tree) : Prop := part rs t -> (forall rs' e path' void', first_in rs t (rs', e) -> In (path', (rs', void')) srcs -> tot (rs', void') (TE e) s) -> tot q (TE t) s.
Lemma tot_upto t : part rs t -> tot q (TE t) s -> forall s', s' = s \/ length s' < length s -> tot q (TE t) s'.
Proof. intros P T s' [->|L]; [exact T|]. exact (SH L IQ P). Qed.
Lemma rest_upto m it s1 vs evs : tep rs across off void m it s (Some (s1, vs)) evs -> s1 = s /\ item_empty rs it \/ length s1 < length s.
Proof. intros T. destruct (tep_rest T) as ([Q|Q] & E); [left; split; [exact Q|exact (E Q)]|right; exact Q]. Qed.
Lemma all_empty_app l1 l2 : all_empty_in rs l1 -> all_empty_in rs l2 -> all_empty_in rs (l1 ++ l2).
Proof.
  enough (G : forall rs0 l1, all_empty_in rs0 l1 -> forall l2, all_empty_in rs0 l2 -> all_empty_in rs0 (l1 ++ l2)) by eauto. clear.
  induction l1 as [|t l1 IH]; intros H l2 H2; [exact H2|]. inversion H; subst. cbn. constructor; auto.
Qed.
Lemma seq_front l : forall l1, Forall front l -> (forall t, In t l -> part rs t) -> all_empty_in rs l1 ->
  (forall rs' e path' void', first_in rs (XSeq (l1 ++ l)) (rs', e) -> In (path', (rs', void')) srcs -> tot (rs', void') (TE e) s) -> tot q (TSeq l) s.
Proof.
  induction l as [|t l IH]; intros l1 F P E1 H m Mm; [exists (Some (s, [])), []; constructor|]. inversion F as [|? ? Ft Fl]; subst.
  assert (T0 : tot q (TE t) s). { apply Ft; [apply P; left; reflexivity|]. intros rs' e path' void' FI. apply H. apply fi_seq; assumption. }
  destruct (T0 m Mm) as ([[s1 vs]|] & evs & T); [|eexists _, _; apply te_seq_fail; exact T].
  assert (TL : tot q (TSeq l) s1).
  { destruct (rest_upto T) as [[-> ET]|L].
    - apply (IH (l1 ++ [t])); [exact Fl|intros t' I0; apply P; right; exact I0|apply all_empty_app; [exact E1|constructor; [exact ET|constructor]]|]. rewrite <- app_assoc. exact H.
    - refine (@tseq_all path q l s1 _). intros t' s' I0 L'. assert (L2 : length s' < length s) by lia. apply (SH L2 IQ). apply P. right. exact I0. }
  destruct (TL m Mm) as ([[s2 vs2]|] & evs2 & T2); [eexists _, _; eapply te_seq_cons_ok; eassumption|eexists _, _; eapply te_seq_cons_fail; eassumption].
Qed.
Lemma alt_front l0 l : Forall front l -> incl l l0 -> (forall t, In t l -> part rs t) ->
  (forall rs' e path' void', first_in rs (XAlt l0) (rs', e) -> In (path', (rs', void')) srcs -> tot (rs', void') (TE e) s) -> tot q (TAlt l) s.
Proof.
  intros F I0 P H. induction l as [|t l IH]; intros m Mm; [eexists _, _; constructor|]. inversion F as [|? ? Ft Fl]; subst.
  assert (T0 : tot q (TE t) s). { apply Ft; [apply P; left; reflexivity|]. intros rs' e path' void' FI. apply H. apply fi_alt with (t := t); [apply I0; left; reflexivity|exact FI]. }
  destruct (T0 m Mm) as ([r|] & evs & T); [eexists _, _; apply te_alt_first; exact T|].
  destruct (IH Fl) with (m := m) as (r2 & evs2 & T2); [intros x Ix; apply I0; right; exact Ix|intros t' It'; apply P; right; exact It'|exact Mm|]. eexists _, _. eapply te_alt_next; eassumption.
Qed.
Lemma star_front t : ~ empty_in rs t -> part rs t -> tot q (TE t) s -> tot q (TStar t) s.
Proof.
  intros NE P T0 m Mm. destruct (T0 m Mm) as ([[s1 vs]|] & evs & T); [|eexists _, _; apply te_star_stop; exact T].
  destruct (rest_upto T) as [[_ ET]|L]; [destruct (NE ET)|].
  assert (TS : tot q (TStar t) s1) by (refine (@tstar_all path q t NE (length s1) s1 (le_n _) _); intros s' L'; assert (L2 : length s' < length s) by lia; exact (SH L2 IQ P)).
  destruct (TS m Mm) as (r2 & evs2 & T2).
  destruct r2 as [[s2 vs2]|]; [|inversion T2]. eexists _, _. eapply te_star_more; eassumption.
Qed.
Lemma front_all : forall t, front t.
Proof.
  assert (NS : forall t, part rs (XStar t) \/ part rs (XPlus t) -> ~ empty_in rs t) by (intros t; pose proof IQ as IQ'; destruct q as [rs0 void0]; exact (me_repeat ME IQ')).
  induction t as [lit| |a b c|p|l IHl|l IHl|t IHt|t IHt|t IHt|t IHt|t IHt|t b p IHt|t ty IHt|t IHt|t IHt] using tree_ind'; intros P H; apply (tot_valued IQ P); intros m Mm V NN NA;
   try (assert (PT : part rs t) by (apply (part_child P); left; reflexivity);
        assert (T0 : tot q (TE t) s) by (apply IHt; [exact PT|]; intros rs' e path' void' FI; apply H; apply fi_un with (u := t); [discriminate|discriminate|left; reflexivity|exact FI])).
  - pose proof (str_or lit s) as D.
    destruct D as [(rest & D)|NR]; [rewrite D; eexists _, _; apply te_str_ok; exact V|eexists _, _; apply te_str_fail; assumption].
  - destruct s as [|c s']; [eexists _, _; apply te_any_fail; exact V|eexists _, _; apply te_any_ok; exact V].
  - destruct s as [|d s']; [eexists _, _; apply te_class_eof; exact V|].
    assert (DC : denotes a b c d \/ ~ denotes a b c d) by exact (class_or a b c d); destruct DC as [D|D]; [eexists _, _; apply te_class_ok; assumption|eexists _, _; apply te_class_fail; assumption].
  - destruct (rule_called rs p) as [e|] eqn:RC.
    + assert (TE0 : tot q (TE e) s). { pose proof IQ as IQ'. destruct q as [rs0 void0]. apply (H rs0 e path void0); [apply fi_call, me_here, RC|exact IQ']. }
      destruct (TE0 m Mm) as (r & evs & T). eexists _, _. eapply te_call; eassumption.
    + enough (K : exists r evs, across m p s r evs) by (destruct K as (r & evs & K); eexists _, _; apply te_ext; eassumption).
      destruct (module_of srcs p) as [[[rs' void'] n]|] eqn:MO.
      * pose proof (module_of_some MO) as M. assert (IN : In n (map fst rs')) by (pose proof IQ as IQ'; destruct q as [rs0 void0]; exact (LR IQ' P RC M)).
        apply in_map_iff in IN. destruct IN as ([n' e] & Qn & I0). cbn in Qn. subst n'. pose proof M as M0. destruct M0 as (path' & IM & _).
        destruct (H rs' e path' void' (fi_call (me_there RC M I0)) IM m Mm) as (r & evs & T). eexists _, _. eapply ac_in; eassumption.
      * pose proof (module_of_none MO) as N. destruct (XT s Mm N) as (r & evs & X). eexists _, _. apply ac_out; eassumption.
  - assert (TS : tot q (TSeq l) s) by (apply (@seq_front l [] IHl); [intros t It; exact (part_child P It)|constructor|exact H]).
    destruct (TS m Mm) as (r & evs & T). eexists _, _. apply te_seq; eassumption.
  - assert (TS : tot q (TAlt l) s) by (apply (@alt_front l l IHl (incl_refl l)); [intros t It; exact (part_child P It)|exact H]).
    destruct (TS m Mm) as (r & evs & T). eexists _, _. apply te_alt; eassumption.
  - destruct (star_front (NS t (or_introl P)) PT T0 Mm) as (r & evs & T). destruct r as [[s1 vs]|]; [|inversion T]. eexists _, _. apply te_star; eassumption.
  - destruct (T0 m Mm) as ([[s1 vs]|] & evs & T); [|eexists _, _; apply te_plus_fail; eassumption].
    pose proof (NS t (or_intror P)) as NE. destruct (rest_upto T) as [[_ ET]|L]; [destruct (NE ET)|].
    assert (TS : tot q (TStar t) s1) by (refine (@tstar_all path q t NE (length s1) s1 (le_n _) _); intros s' L'; assert (L2 : length s' < length s) by lia; exact (SH L2 IQ PT)).
    destruct (TS m Mm) as (r2 & evs2 & T2). destruct r2 as [[s2 vs2]|]; [|inversion T2]. eexists _, _. eapply te_plus_ok; eassumption.
  - destruct (T0 m Mm) as ([[s1 vs]|] & evs & T); [eexists _, _; eapply te_opt_some; eassumption|eexists _, _; apply te_opt_none; eassumption].
  - assert (m = Rec) as -> by (destruct NN as [NN|NN]; [destruct (NN t eq_refl)|exact NN]). destruct (T0 Rec Mm) as ([[s1 vs]|] & evs & T); [eexists _, _; eapply te_not_fail; eassumption|eexists _, _; apply te_not_ok; eassumption].
  - assert (m = Rec) as -> by (destruct NA as [NA|NA]; [destruct (NA t eq_refl)|exact NA]). destruct (T0 Rec Mm) as ([[s1 vs]|] & evs & T); [eexists _, _; eapply te_and_ok; eassumption|eexists _, _; apply te_and_fail; eassumption].
  - destruct m; [destruct (T0 Rec Mm) as (r & evs & T); eexists _, _; apply te_act_rec; exact T|].
    destruct (T0 Par Mm) as ([[s1 vs]|] & evs & T); [|eexists _, _; apply te_act_fail; eassumption].
    assert (U : exists u, u = true <-> void t) by (pose proof IQ as IQ'; destruct q as [rs0 void0]; destruct (proj1 (VO Mm IQ' PT)) as [V1|V1]; [exists true; split; auto|exists false; split; [discriminate|intros V2; destruct (V1 V2)]]).
    destruct U as (u & U). eexists _, _. eapply te_act_ok; eassumption.
  - destruct (T0 m Mm) as (r & evs & T). eexists _, _. apply te_asc; eassumption.
  - destruct m; [destruct (T0 Rec Mm) as (r & evs & T); eexists _, _; apply te_span_rec; exact T|].
    destruct (T0 Par Mm) as ([[s1 vs]|] & evs & T); [eexists _, _; eapply te_span_ok; eassumption|eexists _, _; apply te_span_fail; eassumption].
  - destruct m; [destruct (T0 Rec Mm) as (r & evs & T); eexists _, _; apply te_range_rec; exact T|].
    destruct (T0 Rec MD) as ([[s1 vs]|] & evs & T); [eexists _, _; eapply te_range_ok; eassumption|eexists _, _; apply te_range_fail; eassumption].
Qed.
End One.
Lemma first_target rs t q0 : first_in rs t q0 -> (exists path void, In (path, (rs, void)) srcs) -> exists path void n, In (path, (fst q0, void)) srcs /\ In (n, snd q0) (fst q0).
Proof.
  intros F. induction F as [p rs' e M|l1 t l2 q E F IH|l t q I0 F IH|t u q N1 N2 I0 F IH]; eauto. intros (path & void & IQ). destruct M as [e RC|rs' void' n e RC (path' & IM & _) I0].
  - unfold rule_called in RC. destruct p as [|id [|? ?]]; try discriminate. destruct (find _ rs) as [x|] eqn:FI; [|discriminate]. injection RC as <-. exists path, void, (fst x). split; [exact IQ|]. destruct (find_some _ _ FI) as [I0 _]. destruct x; exact I0.
  - exists path', void', n. auto.
Qed.
Lemma body_part (rs : list (string * tree)) n e : In (n, e) rs -> part rs e.
Proof. intros I0. exists n, e. split; [exact I0|apply wi_refl]. Qed.
Lemma all_here path q t : In (path, q) srcs -> part (fst q) t -> tot q (TE t) s.
Proof.
  set (R := fun a b : list (string * tree) * tree => (exists path void, In (path, (fst a, void)) srcs) /\ first_in (fst a) (snd a) b).
  assert (AC : forall a, Acc (fun b a => R a b) a).
  { apply no_cycle_acc with (D := flat_map (fun x => map (fun y => (fst (snd x), snd y)) (fst (snd x))) srcs).
    - intros a [rs' e] [HP F]. destruct (first_target F HP) as (path' & void & n & IM & I0). cbn [fst snd] in *. apply in_flat_map. exists (path', (rs', void)). split; [exact IM|]. cbn. apply in_map_iff. exists (n, e). auto.
    - intros a C. assert (LAST : exists c, R c a) by (clear - C; revert C; generalize a at 1; intros b C; induction C as [b c H|b c d _ _ _ IH]; eauto).
      destruct LAST as (c & HP & F). destruct (first_target F HP) as (path' & void & n & IM & I0). destruct a as [rs' e]. cbn [fst snd] in *. apply (me_left ME IM I0). clear - C. revert C. generalize (rs', e). intros a C. revert C. generalize a at 2 4 as b. clear. intros b C. induction C as [a b [_ F]|a b c _ IH1 _ IH2]; [apply t_step, F|eapply t_trans; eassumption]. }
  assert (BODY : forall a, Acc (fun b a => R a b) a -> forall path void n, In (path, (fst a, void)) srcs -> In (n, snd a) (fst a) -> tot (fst a, void) (TE (snd a)) s).
  { intros a A. induction A as [a _ IH]. intros path0 void n IQ I0. apply (front_all IQ); [exact (body_part I0)|]. cbn [fst]. intros rs' e path' void' F IM.
    destruct (first_target F ltac:(eauto)) as (path2 & void2 & n2 & IM2 & I2). cbn [fst snd] in *. apply (IH (rs', e)) with (path := path') (n := n2); [|exact IM|exact I2]. split; [eauto|exact F]. }
  intros IQ P. apply (front_all IQ P). intros rs' e path' void' F IM. assert (HP : exists path void, In (path, (fst q, void)) srcs) by (destruct q; eauto).
  destruct (first_target F HP) as (path2 & void2 & n2 & IM2 & I2). cbn [fst snd] in *. apply (BODY (rs', e) (AC _) path' void' n2); assumption.
Qed.
End Front.
Theorem all_end : forall s path q t, In (path, q) srcs -> part (fst q) t -> tot q (TE t) s.
Proof.
  enough (K : forall n s, length s <= n -> forall path q t, In (path, q) srcs -> part (fst q) t -> tot q (TE t) s) by (intros s; exact (K (length s) s (le_n _))).
  induction n as [|n IH]; intros s L path q t IQ P; (apply (@all_here s) with (path := path); [|exact IQ|exact P]); intros s' L'; [lia|]. apply IH. lia.
Qed.
End Total.
