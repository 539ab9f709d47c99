(** Specification: Ford's PEG semantics directly on the syntax trees of FrontSpec.v, independent of the
    arena and of every pass of the compiler. *)
From Verif Require Import Base Grammar CharClass PropertiesGen FrontSpec.
Set Implicit Arguments. Unset Strict Implicit.
Open Scope nat_scope. Open Scope list_scope.

(** The rule a path calls: one segment, declared in the grammar. *)
Definition rule_called (rs : list (string * tree)) (p : list string) : option tree :=
  match p with
  | [id] => match find (fun q => String.eqb (fst q) id) rs with Some q => Some (snd q) | None => None end
  | _ => None
  end.

(** What is matched: a tree, a sequence, an ordered choice or a repetition. *)
Inductive titem := TE (t : tree) | TSeq (l : list tree) | TAlt (l : list tree) | TStar (t : tree).

Section Ford.
Variable rs : list (string * tree).
(** The recognizers outside of the grammar. *)
Variable X : list string -> text -> option text -> Prop.
Inductive tmatches : titem -> text -> option text -> Prop :=
| t_str_ok lit rest : tmatches (TE (XStr lit)) (lit ++ rest) (Some rest)
| t_str_fail lit s : (forall rest, s <> lit ++ rest) -> tmatches (TE (XStr lit)) s None
| t_any_ok c s : tmatches (TE XAny) (c :: s) (Some s)
| t_any_fail : tmatches (TE XAny) [] None
| t_class_ok a b d c s : denotes a b d c -> tmatches (TE (XClass a b d)) (c :: s) (Some s)
| t_class_fail a b d c s : ~ denotes a b d c -> tmatches (TE (XClass a b d)) (c :: s) None
| t_class_eof a b d : tmatches (TE (XClass a b d)) [] None
| t_call p t s r : rule_called rs p = Some t -> tmatches (TE t) s r -> tmatches (TE (XCall p)) s r
| t_ext p s r : rule_called rs p = None -> X p s r -> tmatches (TE (XCall p)) s r
| t_seq l s r : tmatches (TSeq l) s r -> tmatches (TE (XSeq l)) s r
| t_alt l s r : tmatches (TAlt l) s r -> tmatches (TE (XAlt l)) s r
| t_star t s r : tmatches (TStar t) s r -> tmatches (TE (XStar t)) s r
| t_plus_ok t s s1 r : tmatches (TE t) s (Some s1) -> tmatches (TStar t) s1 r -> tmatches (TE (XPlus t)) s r
| t_plus_fail t s : tmatches (TE t) s None -> tmatches (TE (XPlus t)) s None
| t_opt_some t s s1 : tmatches (TE t) s (Some s1) -> tmatches (TE (XOpt t)) s (Some s1)
| t_opt_none t s : tmatches (TE t) s None -> tmatches (TE (XOpt t)) s (Some s)
| t_not_ok t s : tmatches (TE t) s None -> tmatches (TE (XNot t)) s (Some s)
| t_not_fail t s s1 : tmatches (TE t) s (Some s1) -> tmatches (TE (XNot t)) s None
| t_and_ok t s s1 : tmatches (TE t) s (Some s1) -> tmatches (TE (XAnd t)) s (Some s)
| t_and_fail t s : tmatches (TE t) s None -> tmatches (TE (XAnd t)) s None
| t_act t b p s r : tmatches (TE t) s r -> tmatches (TE (XAct t b p)) s r
| t_asc t ty s r : tmatches (TE t) s r -> tmatches (TE (XAsc t ty)) s r
| t_span t s r : tmatches (TE t) s r -> tmatches (TE (XSpan t)) s r
| t_range t s r : tmatches (TE t) s r -> tmatches (TE (XRange t)) s r
| t_seq_nil s : tmatches (TSeq []) s (Some s)
| t_seq_cons t l s s1 r : tmatches (TE t) s (Some s1) -> tmatches (TSeq l) s1 r -> tmatches (TSeq (t :: l)) s r
| t_seq_fail t l s : tmatches (TE t) s None -> tmatches (TSeq (t :: l)) s None
| t_alt_nil s : tmatches (TAlt []) s None
| t_alt_first t l s s1 : tmatches (TE t) s (Some s1) -> tmatches (TAlt (t :: l)) s (Some s1)
| t_alt_next t l s r : tmatches (TE t) s None -> tmatches (TAlt l) s r -> tmatches (TAlt (t :: l)) s r
| t_star_stop t s : tmatches (TE t) s None -> tmatches (TStar t) s (Some s)
| t_star_more t s s1 r : tmatches (TE t) s (Some s1) -> tmatches (TStar t) s1 r -> tmatches (TStar t) s r.
End Ford.
