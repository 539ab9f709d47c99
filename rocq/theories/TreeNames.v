(** Specification: where semantic actions may stand in a rule.

    The generator makes closures of what follows a choice; the variables of an action above a choice are lost there (C28).
    [tidy b t]: every action with a value either has no choice below it or stands where no other value of its rule is
    pending; [b] tells that no value of the rule has been read to the left, in the last branch of all enclosing choices
    and outside repetitions and options. *)
From Verif Require Import Base Grammar FrontSpec TreeSpec TreeWf.
Set Implicit Arguments. Unset Strict Implicit.
Open Scope list_scope.

Section Names.
Variable void : tree -> Prop.
Inductive tidy : bool -> tree -> Prop :=
| ti_void b t : void t -> tidy b t
| ti_leaf b t : operands t = [] -> tidy b t
| ti_seq b l : tidy_seq b l -> tidy b (XSeq l)
| ti_alt b l : tidy_alt b l -> tidy b (XAlt l)
| ti_star b t : tidy false t -> tidy b (XStar t)
| ti_plus b t : tidy false t -> tidy b (XPlus t)
| ti_opt b t : tidy false t -> tidy b (XOpt t)
| ti_act b t bx p : (forall l, ~ within t (XAlt l)) -> tidy b (XAct t bx p)
| ti_first t bx p : tidy true t -> tidy true (XAct t bx p)
| ti_asc b t ty : tidy b t -> tidy b (XAsc t ty)
| ti_span b t : tidy b t -> tidy b (XSpan t)
| ti_range b t : tidy b (XRange t)
with tidy_seq : bool -> list tree -> Prop :=
| ts_nil b : tidy_seq b []
| ts_cons b t l : tidy b t -> tidy_seq false l -> tidy_seq b (t :: l)
| ts_void b t l : tidy b t -> void t -> tidy_seq b l -> tidy_seq b (t :: l)
with tidy_alt : bool -> list tree -> Prop :=
| ta_nil b : tidy_alt b []
| ta_last b t : tidy b t -> tidy_alt b [t]
| ta_cons b t l : l <> [] -> tidy false t -> tidy_alt b l -> tidy_alt b (t :: l).
End Names.
Scheme tidy_mind := Minimality for tidy Sort Prop with tidy_seq_mind := Minimality for tidy_seq Sort Prop with tidy_alt_mind := Minimality for tidy_alt Sort Prop.
Combined Scheme tidy_mutind from tidy_mind, tidy_seq_mind, tidy_alt_mind.
