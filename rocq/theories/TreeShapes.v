(** Specification: what the parser of an expression returns, from the syntax trees alone, up to the names of the types that
    belong to Rust.  [void]: see TreeKinds.v. *)
From Verif Require Import Base Grammar FrontSpec TreeSpec TreeKinds RType.
Set Implicit Arguments. Unset Strict Implicit.
Open Scope list_scope.

Inductive tsh := SUnit | SChar | SRust | SVec (s : tsh) | SOpt (s : tsh) | STup (l : list tsh).
(** The same, of a type in a signature. *)
Fixpoint rshape (t : rty) : tsh :=
  match t with
  | RTUnit => SUnit
  | RTChar => SChar
  | RTRust _ => SRust
  | RTVec t => SVec (rshape t)
  | RTOption t => SOpt (rshape t)
  | RTTuple l => STup (map rshape l)
  end.
(** Tuples in tuples are flattened, units disappear, a tuple of one is its component. *)
Definition parts (s : tsh) : list tsh := match s with SUnit => [] | STup l => l | s => [s] end.
Definition assemble (l : list tsh) : tsh := match l with [] => SUnit | [s] => s | l => STup l end.

Section Shapes.
Variable rs : list (string * tree).
Variable ret : string -> option (option string).
Local Notation void := (void rs ret).
Inductive tshape : tree -> tsh -> Prop :=
| sh_void t : void t -> tshape t SUnit
| sh_any : tshape XAny SChar
| sh_class a b c : tshape (XClass a b c) SChar
| sh_call p t s : rule_called rs p = Some t -> tshape t s -> tshape (XCall p) s
| sh_ext p : rule_called rs p = None -> tshape (XCall p) SRust
| sh_star t s : ~ void (XStar t) -> tshape t s -> tshape (XStar t) (SVec s)
| sh_plus t s : ~ void (XPlus t) -> tshape t s -> tshape (XPlus t) (SVec s)
| sh_opt t s : ~ void (XOpt t) -> tshape t s -> tshape (XOpt t) (SOpt s)
| sh_act t b p : ~ void (XAct t b p) -> tshape (XAct t b p) SRust
| sh_asc t ty : ~ void (XAsc t ty) -> tshape (XAsc t ty) SRust
| sh_range t : tshape (XRange t) SRust
| sh_span t s : tshape t s -> tshape (XSpan t) (assemble (SRust :: parts s))
| sh_seq l ss : ~ void (XSeq l) -> tshapes l ss -> tshape (XSeq l) (assemble (flat_map parts ss))
| sh_alt l t s : ~ void (XAlt l) -> In t l -> tshape t s -> tshape (XAlt l) s
with tshapes : list tree -> list tsh -> Prop :=
| sh_nil : tshapes [] []
| sh_cons t l s ss : tshape t s -> tshapes l ss -> tshapes (t :: l) (s :: ss).
End Shapes.
Scheme tshape_mind := Minimality for tshape Sort Prop with tshapes_mind := Minimality for tshapes Sort Prop.
Combined Scheme tshape_mutind from tshape_mind, tshapes_mind.
