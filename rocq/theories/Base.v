(** Shared vocabulary: results that may panic, bytes, characters. *)
From Coq Require Export String.
From Coq Require Export List Arith NArith ZArith Lia Bool.
Export ListNotations.
From Coq Require Export ZifyBool ZifyNat ZifyN.
Set Implicit Arguments.

(** A Rust computation that either returns or panics.  A panic is an explicit value,
    never identified with a normal result. *)
Inductive res (A : Type) : Type :=
| Ret (a : A)
| Panic.
Arguments Ret {A} a.
Arguments Panic {A}.

Definition bind {A B} (r : res A) (f : A -> res B) : res B :=
  match r with Ret a => f a | Panic => Panic end.
Notation "x <- r ;; k" := (bind r (fun x => k)) (at level 61, r at next level, right associativity).
Notation "' p <- r ;; k" := (bind r (fun p => k)) (at level 61, p pattern, r at next level, right associativity).

(** Unicode code points and bytes are both [N]; a Rust [char] is a scalar value. *)
Notation char := N (only parsing).
Notation byte := N (only parsing).
Notation text := (list N) (only parsing).

Definition is_scalar (c : char) : bool :=
  (c <? 55296)%N || ((57344 <=? c)%N && (c <=? 1114111)%N).

Definition scalars (t : text) : Prop := Forall (fun c => is_scalar c = true) t.

Fixpoint list_eqb {A} (eqb : A -> A -> bool) (l1 l2 : list A) : bool :=
  match l1, l2 with
  | [], [] => true
  | x :: xs, y :: ys => eqb x y && list_eqb eqb xs ys
  | _, _ => false
  end.

Lemma list_eqb_eq A (eqb : A -> A -> bool) :
  (forall x y, eqb x y = true <-> x = y) ->
  forall l1 l2, list_eqb eqb l1 l2 = true <-> l1 = l2.
Proof.
  intros H; induction l1 as [|x xs IH]; intros [|y ys]; simpl; split; intros E; try easy.
  - apply andb_true_iff in E; destruct E as [E1 E2]. apply H in E1; apply IH in E2; congruence.
  - injection E; intros; subst. apply andb_true_iff; split; [apply H | apply IH]; reflexivity.
Qed.

Definition bytes_eqb := list_eqb N.eqb.
Lemma bytes_eqb_eq l1 l2 : bytes_eqb l1 l2 = true <-> l1 = l2.
Proof. apply list_eqb_eq. intros; apply N.eqb_eq. Qed.
