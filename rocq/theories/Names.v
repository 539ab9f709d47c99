(** Rendering of generated identifiers: src/liboak/back/name_factory.rs. *)
From Verif Require Import Base Grammar PegSpec Target Compile.
Set Implicit Arguments. Unset Strict Implicit.
Open Scope nat_scope. Open Scope list_scope.

(** Digits of [n] in base [b], least significant first; none for 0. *)
Fixpoint le_digits (b : N) (fuel : nat) (n : N) : list N :=
  match fuel with
  | 0 => []
  | S k => if (n =? 0)%N then [] else (n mod b)%N :: le_digits b k (n / b)%N
  end.
Definition digits_of (b n : N) : list N := le_digits b (N.size_nat n) n.
Fixpoint value (b : N) (l : list N) : N :=
  match l with [] => 0 | d :: l => d + b * value b l end%N.

(** [format_ident!("{}{}", .., k)]: decimal, as character codes. *)
Definition decimal (n : N) : text :=
  if (n =? 0)%N then [48%N] else map (N.add 48) (rev (digits_of 10 n)).

(** name_factory.rs:89-100: the [while] loop over LETTERS, least significant letter first. *)
Definition var_prefix (uid : N) : text := map (N.add 97) (digits_of 26 uid).

Definition str_mark : text := [109; 97; 114; 107]%N.                                            (* mark *)
Definition str_branch : text := [98; 114; 97; 110; 99; 104; 95; 102; 97; 105; 108; 101; 100; 95]%N. (* branch_failed_ *)
Definition str_counter : text := [99; 111; 117; 110; 116; 101; 114]%N.                          (* counter *)
Definition str_closure : text :=                                                                 (* success_continuation_ *)
  [115; 117; 99; 99; 101; 115; 115; 95; 99; 111; 110; 116; 105; 110; 117; 97; 116; 105; 111; 110; 95]%N.

(** The identifiers of one generated function. *)
Inductive gname := GLocal (n : name) | GClosure (k : nat).
(** name_factory.rs:62-87; "x" is character_class.rs:27-29. *)
Definition render (n : gname) : text :=
  match n with
  | GLocal (NVar u i) => var_prefix (N.of_nat u) ++ decimal (N.of_nat i)
  | GLocal (NMark k) => str_mark ++ decimal (N.of_nat k)
  | GLocal (NBranch k) => str_branch ++ decimal (N.of_nat k)
  | GLocal (NCounter k) => str_counter ++ decimal (N.of_nat k)
  | GLocal NX => [120%N]
  | GClosure k => str_closure ++ decimal (N.of_nat k)
  end.

(** Requests to the name factory, and the names given (name_factory.rs:62-87). *)
Inductive request := ReqMark | ReqBranch | ReqCounter | ReqClosure | ReqVars (cardinality : nat).
Definition next_closure (x : ctx) : nat * ctx :=
  (S (closure_uid x),
   mkCtx (prefix_uid x) (mark_uid x) (branch_uid x) (counter_uid x) (S (closure_uid x))
         (closures x) (frees x) (marks x) (muts x) (ncomb x)).
Definition issue (r : request) (x : ctx) : list gname * ctx :=
  match r with
  | ReqMark => let '(n, y) := next_mark x in ([GLocal n], y)
  | ReqBranch => let '(n, y) := next_branch x in ([GLocal n], y)
  | ReqCounter => let '(n, y) := next_counter x in ([GLocal n], y)
  | ReqClosure => let '(k, y) := next_closure x in ([GClosure k], y)
  | ReqVars c => let '(l, y) := fresh_vars c x in (map GLocal l, y)
  end.
Fixpoint issue_all (rs : list request) (x : ctx) : list gname :=
  match rs with [] => [] | r :: rs => let '(l, y) := issue r x in l ++ issue_all rs y end.

(** name_factory.rs:33-39 (and 18-31 for the last segment of a path). *)
Definition str_parse : text := [112; 97; 114; 115; 101; 95]%N.
Definition str_recognize : text := [114; 101; 99; 111; 103; 110; 105; 122; 101; 95]%N.
Definition function_name (m : mode) (rule : text) : text :=
  match m with Rec => str_recognize ++ rule | Par => str_parse ++ rule end.

(** ---------------- facts ---------------- *)
Lemma digits_value b (Hb : (2 <= b)%N) fuel : forall n, (n < 2 ^ N.of_nat fuel)%N -> value b (le_digits b fuel n) = n.
Proof.
  induction fuel as [|k IH]; intros n H.
  - cbn in *. lia.
  - cbn [le_digits]. destruct (n =? 0)%N eqn:E; [apply N.eqb_eq in E; subst; reflexivity|]. cbn [value]. rewrite IH.
    + rewrite N.add_comm. symmetry. apply N.div_mod. lia.
    + apply N.le_lt_trans with (n / 2)%N; [apply N.div_le_compat_l; lia|]. apply N.div_lt_upper_bound; [lia|].
      rewrite Nat2N.inj_succ, N.pow_succ_r' in H. exact H.
Qed.
Lemma size_bound n : (n < 2 ^ N.of_nat (N.size_nat n))%N.
Proof.
  destruct n as [|p]; [cbn; lia|]. induction p as [p IH|p IH|]; cbn [N.size_nat Pos.size_nat] in *.
  - rewrite Nat2N.inj_succ, N.pow_succ_r'. lia.
  - rewrite Nat2N.inj_succ, N.pow_succ_r'. lia.
  - cbn. lia.
Qed.
Lemma value_digits b n : (2 <= b)%N -> value b (digits_of b n) = n.
Proof. intros H. apply digits_value; [exact H|apply size_bound]. Qed.
Lemma digits_small b fuel : (2 <= b)%N -> forall n, Forall (fun d => (d < b)%N) (le_digits b fuel n).
Proof.
  intros Hb. induction fuel as [|k IH]; intros n; cbn; [constructor|]. destruct (n =? 0)%N; [constructor|].
  constructor; [apply N.mod_lt; lia|apply IH].
Qed.
Lemma map_add_inj k (a b : list N) : map (N.add k) a = map (N.add k) b -> a = b.
Proof.
  revert b. induction a as [|x a IH]; intros [|y b] H; try discriminate; [reflexivity|]. cbn in H. injection H as H1 H2.
  f_equal; [lia|auto].
Qed.
Lemma digits_zero b fuel n : le_digits b fuel n = [] -> fuel = 0 \/ n = 0%N.
Proof. destruct fuel as [|k]; [auto|]. cbn. destruct (n =? 0)%N eqn:E; [apply N.eqb_eq in E; auto|discriminate]. Qed.
Lemma rev_inj A (a b : list A) : rev a = rev b -> a = b.
Proof. intros H. rewrite <- (rev_involutive a), <- (rev_involutive b), H. reflexivity. Qed.

Lemma value_rev_nonzero n : n <> 0%N -> map (N.add 48) (rev (digits_of 10 n)) <> [48%N].
Proof.
  intros Hn H. assert (E : rev (digits_of 10 n) = [0%N]) by (apply (@map_add_inj 48); exact H).
  assert (E' : digits_of 10 n = [0%N]) by (apply rev_inj; exact E).
  apply (f_equal (value 10)) in E'. rewrite value_digits in E' by lia. cbn in E'. contradiction.
Qed.
Lemma decimal_inj n m : decimal n = decimal m -> n = m.
Proof.
  unfold decimal. destruct (N.eqb_spec n 0) as [A|A], (N.eqb_spec m 0) as [B|B]; intros H.
  - congruence.
  - symmetry in H. apply value_rev_nonzero in H; [destruct H|exact B].
  - apply value_rev_nonzero in H; [destruct H|exact A].
  - apply map_add_inj, rev_inj in H. apply (f_equal (value 10)) in H. rewrite !value_digits in H by lia. exact H.
Qed.
Lemma prefix_inj n m : var_prefix n = var_prefix m -> n = m.
Proof.
  unfold var_prefix. intros H. apply map_add_inj in H. apply (f_equal (value 26)) in H. rewrite !value_digits in H by lia. exact H.
Qed.

Definition is_digit (c : N) : bool := ((48 <=? c) && (c <=? 57))%N.
Definition no_digit (s : text) : Prop := Forall (fun c => is_digit c = false) s.
Lemma decimal_digits n : decimal n <> [] /\ Forall (fun c => is_digit c = true) (decimal n).
Proof.
  unfold decimal. destruct (n =? 0)%N eqn:E; [split; [discriminate|repeat constructor]|]. apply N.eqb_neq in E. split.
  - intros H. apply map_eq_nil in H. apply (f_equal (@rev N)) in H. rewrite rev_involutive in H. cbn in H.
    apply (f_equal (value 10)) in H. rewrite value_digits in H by lia. cbn in H. contradiction.
  - apply Forall_forall. intros c H. apply in_map_iff in H. destruct H as (d & <- & H). apply in_rev in H.
    pose proof (@digits_small 10 (N.size_nat n) ltac:(lia) n) as F. rewrite Forall_forall in F. specialize (F d H).
    unfold is_digit. apply andb_true_iff. split; apply N.leb_le; lia.
Qed.
Lemma prefix_letters n : Forall (fun c => (97 <= c /\ c <= 122)%N) (var_prefix n).
Proof.
  apply Forall_forall. intros c H. apply in_map_iff in H. destruct H as (d & <- & H).
  pose proof (@digits_small 26 (N.size_nat n) ltac:(lia) n) as F. rewrite Forall_forall in F. specialize (F d H). lia.
Qed.
Lemma prefix_no_digit n : no_digit (var_prefix n).
Proof.
  eapply Forall_impl; [|apply prefix_letters]. intros c H. cbv beta in H. unfold is_digit. apply andb_false_iff. right. apply N.leb_gt. lia.
Qed.

Lemma split_digits a b d e : no_digit a -> no_digit b -> d <> [] -> e <> [] ->
  Forall (fun c => is_digit c = true) d -> Forall (fun c => is_digit c = true) e ->
  a ++ d = b ++ e -> a = b /\ d = e.
Proof.
  intros Ha. revert b. induction Ha as [|x a Hx Ha IH]; intros b Hb Nd Ne Fd Fe H.
  - destruct Hb as [|y b Hy Hb]; [auto|]. cbn in H. destruct Fd as [|z d Hz Fd]; [contradiction|]. injection H as -> _. congruence.
  - destruct Hb as [|y b Hy Hb]; cbn in H.
    + destruct Fe as [|z e Hz Fe]; [contradiction|]. injection H as -> _. congruence.
    + injection H as -> H. destruct (IH b Hb Nd Ne Fd Fe H) as [-> ->]. auto.
Qed.

(** An identifier is a stem without digits followed by a number. *)
Definition stem (n : gname) : text :=
  match n with
  | GLocal (NVar u _) => var_prefix (N.of_nat u)
  | GLocal (NMark _) => str_mark
  | GLocal (NBranch _) => str_branch
  | GLocal (NCounter _) => str_counter
  | GLocal NX => [120%N]
  | GClosure _ => str_closure
  end.
Definition num (n : gname) : nat :=
  match n with GLocal (NVar _ k) | GLocal (NMark k) | GLocal (NBranch k) | GLocal (NCounter k) | GClosure k => k | GLocal NX => 0 end.
Lemma stem_no_digit n : no_digit (stem n).
Proof. destruct n as [[]|]; try apply prefix_no_digit; repeat constructor. Qed.
Lemma render_stem n : n <> GLocal NX -> render n = stem n ++ decimal (N.of_nat (num n)).
Proof. destruct n as [[]|]; intros H; try reflexivity. congruence. Qed.

Lemma render_split a b : a <> GLocal NX -> b <> GLocal NX -> render a = render b -> stem a = stem b /\ num a = num b.
Proof.
  intros Ha Hb H. rewrite (render_stem Ha), (render_stem Hb) in H.
  destruct (@split_digits _ _ _ _ (stem_no_digit a) (stem_no_digit b) (proj1 (decimal_digits _)) (proj1 (decimal_digits _))
     (proj2 (decimal_digits _)) (proj2 (decimal_digits _)) H) as [A B].
  split; [exact A|]. apply decimal_inj in B. lia.
Qed.

Lemma no_underscore n s : In 95%N s -> var_prefix n <> s.
Proof.
  intros H E. pose proof (prefix_letters n) as F. rewrite E, Forall_forall in F. specialize (F _ H). lia.
Qed.
Definition mark_clash : N := 187264.
Definition counter_clash : N := 5308018614.
Lemma prefix_mark n : var_prefix n = str_mark <-> n = mark_clash.
Proof.
  split; [|intros ->; vm_compute; reflexivity]. intros H. apply prefix_inj. rewrite H. vm_compute. reflexivity.
Qed.
Lemma prefix_counter n : var_prefix n = str_counter <-> n = counter_clash.
Proof.
  split; [|intros ->; vm_compute; reflexivity]. intros H. apply prefix_inj. rewrite H. vm_compute. reflexivity.
Qed.
