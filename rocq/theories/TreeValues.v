(** Specification: the semantics of TreeSpec.v extended with the values parsers build, the calls of semantic actions and
    the failures of terminals, directly on the syntax trees of FrontSpec.v.  As [ep] (PegSpec.v), without arena nor types:
    [void t] says that [t] has no value of its own; in mode [Rec] it is not consulted. *)
From Verif Require Import Base Grammar CharClass PegSpec PropertiesGen FrontSpec TreeSpec.
Set Implicit Arguments. Unset Strict Implicit.
Open Scope nat_scope. Open Scope list_scope.

Section Values.
Variable rs : list (string * tree).
(** The functions outside of the grammar. *)
Variable X : extern.
(** Offsets of a position in the whole text. *)
Variable off : text -> nat.
Variable void : tree -> Prop.

(** Where values are asked for, expressions without value are only recognised. *)
Definition valued (m : mode) (t : tree) : Prop := match m with Rec => True | Par => ~ void t end.

Inductive tep : mode -> titem -> text -> option (text * list value) -> list event -> Prop :=
| te_void t s r evs : void t -> tep Rec (TE t) s r evs -> tep Par (TE t) s r evs
| te_str_ok m lit rest : valued m (XStr lit) -> tep m (TE (XStr lit)) (lit ++ rest) (Some (rest, [])) []
| te_str_fail m lit s : valued m (XStr lit) -> (forall rest, s <> lit ++ rest) -> tep m (TE (XStr lit)) s None [EvErr s lit]
| te_any_ok m c s : valued m XAny -> tep m (TE XAny) (c :: s) (Some (s, vals m [VChar c])) []
| te_any_fail m : valued m XAny -> tep m (TE XAny) [] None [EvErr [] any_desc]
| te_class_ok m a b d c s : valued m (XClass a b d) -> denotes a b d c -> tep m (TE (XClass a b d)) (c :: s) (Some (s, vals m [VChar c])) []
| te_class_fail m a b d c s : valued m (XClass a b d) -> ~ denotes a b d c ->
    tep m (TE (XClass a b d)) (c :: s) None [EvErr (c :: s) (class_desc (class_intervals a b d))]
| te_class_eof m a b d : valued m (XClass a b d) -> tep m (TE (XClass a b d)) [] None [EvErr [] (class_desc (class_intervals a b d))]
| te_call m p t s r evs : valued m (XCall p) -> rule_called rs p = Some t -> tep m (TE t) s r evs -> tep m (TE (XCall p)) s r evs
| te_ext m p s r evs : valued m (XCall p) -> rule_called rs p = None -> X m p s r evs -> tep m (TE (XCall p)) s r evs
| te_seq m l s r evs : valued m (XSeq l) -> tep m (TSeq l) s r evs -> tep m (TE (XSeq l)) s r evs
| te_alt m l s r evs : valued m (XAlt l) -> tep m (TAlt l) s r evs -> tep m (TE (XAlt l)) s r evs
| te_star m t s s1 vs evs : valued m (XStar t) -> tep m (TStar t) s (Some (s1, vs)) evs -> tep m (TE (XStar t)) s (Some (s1, vals m [VVec vs])) evs
| te_plus_ok m t s s1 vs1 evs1 s2 vs2 evs2 : valued m (XPlus t) -> tep m (TE t) s (Some (s1, vs1)) evs1 ->
    tep m (TStar t) s1 (Some (s2, vs2)) evs2 -> tep m (TE (XPlus t)) s (Some (s2, vals m [VVec (tup vs1 :: vs2)])) (evs1 ++ evs2)
| te_plus_fail m t s evs : valued m (XPlus t) -> tep m (TE t) s None evs -> tep m (TE (XPlus t)) s None evs
| te_opt_some m t s s1 vs evs : valued m (XOpt t) -> tep m (TE t) s (Some (s1, vs)) evs -> tep m (TE (XOpt t)) s (Some (s1, vals m [VSome (tup vs)])) evs
| te_opt_none m t s evs : valued m (XOpt t) -> tep m (TE t) s None evs -> tep m (TE (XOpt t)) s (Some (s, vals m [VNone])) evs
| te_not_ok t s evs : tep Rec (TE t) s None evs -> tep Rec (TE (XNot t)) s (Some (s, [])) evs
| te_not_fail t s s1 vs evs : tep Rec (TE t) s (Some (s1, vs)) evs -> tep Rec (TE (XNot t)) s None evs
| te_and_ok t s s1 vs evs : tep Rec (TE t) s (Some (s1, vs)) evs -> tep Rec (TE (XAnd t)) s (Some (s, [])) evs
| te_and_fail t s evs : tep Rec (TE t) s None evs -> tep Rec (TE (XAnd t)) s None evs
| te_act_rec t b p s r evs : tep Rec (TE t) s r evs -> tep Rec (TE (XAct t b p)) s r evs
(** The action is called with the values of its operand; [Variant] alone is not a call (repo: back/context.rs, actions). *)
| te_act_ok t b p u s s1 vs evs : ~ void (XAct t b p) -> (u = true <-> void t) -> tep Par (TE t) s (Some (s1, vs)) evs ->
    tep Par (TE (XAct t b p)) s (Some (s1, [act_value (ActPath p) u b vs])) (evs ++ act_events (ActPath p) u vs)
| te_act_fail t b p s evs : ~ void (XAct t b p) -> tep Par (TE t) s None evs -> tep Par (TE (XAct t b p)) s None evs
| te_asc m t ty s r evs : valued m (XAsc t ty) -> tep m (TE t) s r evs -> tep m (TE (XAsc t ty)) s r evs
| te_span_rec t s r evs : tep Rec (TE t) s r evs -> tep Rec (TE (XSpan t)) s r evs
| te_span_ok t s s1 vs evs : ~ void (XSpan t) -> tep Par (TE t) s (Some (s1, vs)) evs ->
    tep Par (TE (XSpan t)) s (Some (s1, VSpan (u32_of (off s)) (u32_of (off s1)) :: vs)) evs
| te_span_fail t s evs : ~ void (XSpan t) -> tep Par (TE t) s None evs -> tep Par (TE (XSpan t)) s None evs
| te_range_rec t s r evs : tep Rec (TE t) s r evs -> tep Rec (TE (XRange t)) s r evs
| te_range_ok t s s1 vs evs : ~ void (XRange t) -> tep Rec (TE t) s (Some (s1, vs)) evs ->
    tep Par (TE (XRange t)) s (Some (s1, VRange (off s) (off s1) :: vs)) evs
| te_range_fail t s evs : ~ void (XRange t) -> tep Rec (TE t) s None evs -> tep Par (TE (XRange t)) s None evs
| te_seq_nil m s : tep m (TSeq []) s (Some (s, [])) []
| te_seq_cons_ok m t l s s1 vs1 evs1 s2 vs2 evs2 : tep m (TE t) s (Some (s1, vs1)) evs1 -> tep m (TSeq l) s1 (Some (s2, vs2)) evs2 ->
    tep m (TSeq (t :: l)) s (Some (s2, vs1 ++ vs2)) (evs1 ++ evs2)
| te_seq_cons_fail m t l s s1 vs1 evs1 evs2 : tep m (TE t) s (Some (s1, vs1)) evs1 -> tep m (TSeq l) s1 None evs2 -> tep m (TSeq (t :: l)) s None (evs1 ++ evs2)
| te_seq_fail m t l s evs : tep m (TE t) s None evs -> tep m (TSeq (t :: l)) s None evs
| te_alt_nil m s : tep m (TAlt []) s None []
| te_alt_first m t l s r evs : tep m (TE t) s (Some r) evs -> tep m (TAlt (t :: l)) s (Some r) evs
| te_alt_next m t l s evs1 r evs2 : tep m (TE t) s None evs1 -> tep m (TAlt l) s r evs2 -> tep m (TAlt (t :: l)) s r (evs1 ++ evs2)
| te_star_stop m t s evs : tep m (TE t) s None evs -> tep m (TStar t) s (Some (s, [])) evs
| te_star_more m t s s1 vs1 evs1 s2 vs2 evs2 : tep m (TE t) s (Some (s1, vs1)) evs1 -> tep m (TStar t) s1 (Some (s2, vs2)) evs2 ->
    tep m (TStar t) s (Some (s2, tup vs1 :: vs2)) (evs1 ++ evs2).
End Values.
