(** Two checks rustc makes on a generated function (src/liboak/back), and that the evaluation of
    Target.v ignores: assignments through [&mut] parameters and moves.

    The parameters of a continuation closure that carry the mutable variables are declared
    [x: &mut T] (back/context.rs:172-174), without [mut], and the arguments are [&mut x]
    (context.rs:187-189); the free variables are passed by value (context.rs:176-177, 190-192).
    A generated function is rejected
    - when, in the body of a closure, such a parameter is the target of [x = e] (mismatched types),
      the condition of an [if], or is borrowed again by [&mut x] ([x] is not declared mutable);
      [x.push(e)] is accepted;
    - when a variable whose type is not [Copy] is used after it may have been moved: moves are
      arguments of [state.success], of a semantic action, of a continuation, of [Some] and of
      [push].
    What is left out: marks (cloned at every use that is not the last), the variable [state], types. *)
From Verif Require Import Base Grammar PegSpec Target ScopeFacts.
Set Implicit Arguments. Unset Strict Implicit.

Definition drop (x : name) (l : list name) : list name := filter (fun y => negb (name_eqb x y)) l.
Fixpoint drops (xs l : list name) : list name := match xs with [] => l | x :: r => drops r (drop x l) end.
Definition apart (a b : list name) : bool := forallb (fun x => negb (mem x b)) a.

(** [through R c]: no parameter of [R] (of type [&mut T]) is assigned, tested or borrowed in [c]. *)
Fixpoint through (R : list name) (c : code) : bool :=
  match c with
  | CState | CFailure | CTail _ | CSuccess _ => true
  | CCall _ muts _ _ => apart muts R
  | CLetMark x c | CLetBool x _ c | CLetCounter x c | CLetNone x c | CLetVec x c | CLetAct x _ _ _ _ c | CLetSpan x _ _ c =>
    through (drop x R) c
  | CSetBool b _ c => negb (mem b R) && through R c
  | CSetSome x _ c => negb (mem x R) && through R c
  | CPush _ _ c => through R c
  | CMatchNext (Some x) s f | CMatchClass x _ s f => through (drop x R) s && through R f
  | CMatchNext None s f | CPrefix _ s f | CCallRec _ s f => through R s && through R f
  | CCallPar _ vars s f => through (drops vars R) s && through R f
  | CError _ c | CRestore _ c | CRestoreFF _ c | CIfFailedRestore _ c => through R c
  | CAssign b c => through R b && through R c
  | CIfTrue x c1 c2 => negb (mem x R) && through R c1 && through R c2
  | CTestRestore _ c1 c2 | CIfLess _ _ c1 c2 => through R c1 && through R c2
  | CLoop body _ _ c => through R body && through R c
  end.

(** [char_names c]: the variables bound to a character by a pattern of [c]. *)
Fixpoint char_names (c : code) : list name :=
  match c with
  | CState | CFailure | CTail _ | CSuccess _ | CCall _ _ _ _ => []
  | CLetMark _ c | CLetBool _ _ c | CLetCounter _ c | CLetNone _ c | CLetVec _ c | CLetAct _ _ _ _ _ c | CLetSpan _ _ _ c
  | CSetBool _ _ c | CSetSome _ _ c | CPush _ _ c | CError _ c | CRestore _ c | CRestoreFF _ c | CIfFailedRestore _ c => char_names c
  | CMatchNext (Some x) s f | CMatchClass x _ s f => x :: char_names s ++ char_names f
  | CMatchNext None a b | CPrefix _ a b | CCallRec _ a b | CCallPar _ _ a b | CAssign a b | CIfTrue _ a b | CTestRestore _ a b
  | CIfLess _ _ a b | CLoop a _ _ b => char_names a ++ char_names b
  end.

Section Moves.
(** The variables whose type is [Copy]. *)
Variable cp : name -> bool.

(** Use by value of [xs] when the variables [M] may have been moved: the new [M], or a violation. *)
Fixpoint move (xs M : list name) : option (list name) :=
  match xs with
  | [] => Some M
  | x :: r => if cp x then move r M else if mem x M then None else move r (x :: M)
  end.
(** Leave the scope of variable [x]: what was known of an outer variable of that name is back. *)
Definition leave (x : name) (M : list name) (r : option (list name)) : option (list name) :=
  option_map (fun N => if mem x M then x :: drop x N else drop x N) r.
Fixpoint leaves (xs M : list name) (r : option (list name)) : option (list name) :=
  match xs with [] => r | x :: xs => leaves xs M (leave x M r) end.
Definition join (a b : option (list name)) : option (list name) :=
  match a, b with Some a, Some b => Some (a ++ b) | _, _ => None end.
Definition andthen (a : option (list name)) (k : list name -> option (list name)) : option (list name) :=
  match a with Some M => k M | None => None end.

Fixpoint moves (M : list name) (c : code) : option (list name) :=
  match c with
  | CState | CFailure | CTail _ => Some M
  | CSuccess vars => move vars M
  | CCall _ muts frees _ => if apart muts M then move frees M else None
  | CLetMark x c | CLetBool x _ c | CLetCounter x c | CLetNone x c | CLetVec x c | CLetSpan x _ _ c => leave x M (moves (drop x M) c)
  | CLetAct x _ _ _ args c => andthen (move args M) (fun M => leave x M (moves (drop x M) c))
  | CSetBool _ _ c => moves M c
  | CSetSome x vars c => andthen (move vars M) (fun M => moves (drop x M) c)
  | CPush x vars c => if mem x M then None else andthen (move vars M) (fun M => moves M c)
  | CMatchNext (Some x) s f | CMatchClass x _ s f => join (leave x M (moves (drop x M) s)) (moves M f)
  | CMatchNext None s f | CPrefix _ s f | CCallRec _ s f => join (moves M s) (moves M f)
  | CCallPar _ vars s f => join (leaves vars M (moves (drops vars M) s)) (moves M f)
  | CError _ c | CRestore _ c | CRestoreFF _ c | CIfFailedRestore _ c => moves M c
  | CAssign b c => andthen (moves M b) (fun M => moves M c)
  | CIfTrue _ c1 c2 | CTestRestore _ c1 c2 | CIfLess _ _ c1 c2 => join (moves M c1) (moves M c2)
  (* the body runs again after itself *)
  | CLoop body _ _ c => andthen (moves M body) (fun M => andthen (moves M body) (fun M => moves M c))
  end.
End Moves.

Definition func_chars (f : func) : list name := flat_map (fun k => char_names (kbody (snd k))) (fclosures f) ++ char_names (fbody f).
Definition is_some A (o : option A) : bool := match o with Some _ => true | None => false end.

(** The two checks on a function. *)
Definition refs_ok (f : func) : bool := forallb (fun k => through (kmuts (snd k)) (kbody (snd k))) (fclosures f) && through [] (fbody f).
Definition moves_ok (cp : name -> bool) (f : func) : bool :=
  forallb (fun k => is_some (moves cp [] (kbody (snd k)))) (fclosures f) && is_some (moves cp [] (fbody f)).
