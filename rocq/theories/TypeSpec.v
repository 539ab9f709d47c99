(** Specification: the types of expressions, and which grammars are well typed, from the syntax trees alone.

    Types as Oak knows them: [^] (invisible), [()], a type known to Rust only (external parsers and functions), [char], a
    Rust type written in the grammar (Oak does not compare them: all are taken for the same), options, lists and tuples. *)
From Verif Require Import Base Grammar FrontSpec TreeSpec.
Set Implicit Arguments. Unset Strict Implicit.
Open Scope string_scope. Open Scope nat_scope. Open Scope list_scope.

Inductive vtype := YInv | YUnit | YForeign | YChar | YRust (s : string) | YOpt (y : vtype) | YList (y : vtype) | YTup (l : list vtype).
Definition nothing (y : vtype) : bool := match y with YInv | YUnit => true | _ => false end.
Definition unseen (y : vtype) : bool := match y with YInv => true | _ => false end.
(** A sequence has the values of its operands, those of tuples on the same level. *)
Definition spread (y : vtype) : list vtype := match y with YTup l => l | y => [y] end.
Definition seq_type (ys : list vtype) : vtype :=
  let all := flat_map spread ys in
  if forallb unseen all then YInv else match filter (fun y => negb (nothing y)) all with [] => YUnit | [y] => y | l => YTup l end.
(** Repetitions and options of invisible expressions are invisible. *)
Definition rep_type (w : vtype -> vtype) (y : vtype) : vtype := if unseen y then YInv else w y.
(** The same, but for the Rust types. *)
Fixpoint nameless (y : vtype) : vtype :=
  match y with YRust _ => YRust "" | YOpt y => YOpt (nameless y) | YList y => YList (nameless y) | YTup l => YTup (map nameless l) | y => y end.
Definition akin (y z : vtype) : Prop := nameless y = nameless z.
(** A choice has the type of its first branch that is not of foreign type (if there is one), and the other branches have the
    same type or are of foreign types; or some branches are invisible and the others [()]. *)
Definition agree (ys : list vtype) (y : vtype) : Prop :=
  (exists l r, ys = l ++ y :: r /\ (forall z, In z l -> z = YForeign) /\ (forall z, In z r -> akin z y \/ z = YForeign)) \/
  (y = YInv /\ In YInv ys /\ In YUnit ys /\ forall z, In z ys -> z = YInv \/ z = YUnit).
Definition asc_type (t : ity) : vtype := match t with IInvisible => YInv | IRegular TUnit => YUnit | IRegular (TRust s) => YRust s | _ => YForeign end.
(** No foreign type remains. *)
Inductive foreign_in : vtype -> Prop :=
| fr_here : foreign_in YForeign
| fr_opt y : foreign_in y -> foreign_in (YOpt y)
| fr_list y : foreign_in y -> foreign_in (YList y)
| fr_tup l y : In y l -> foreign_in y -> foreign_in (YTup l).

(** The return types of the functions of the grammar, and the types of spans and of ranges. *)
Record rust_facts := mkFacts { returns : string -> option (option string); span_name : string; range_name : string }.

Section Types.
Variable rs : list (string * tree).
(** What Rust code tells. *)
Variable ret : rust_facts.
(** The value of a function of the grammar; [b]: in a [Box]. *)
Definition act_type (b : bool) (p : list string) : vtype :=
  match p with
  | [f] => match returns ret f with Some (Some s) => YRust (if b then "Box<" ++ s ++ ">" else s) | Some None => YUnit | None => YForeign end
  | _ => YForeign
  end.
(** [has t y]: the expression [t] has type [y].  Actions and ascriptions have the type they say. *)
Inductive has : tree -> vtype -> Prop :=
| ha_str s : has (XStr s) YInv
| ha_any : has XAny YChar
| ha_class a b c : has (XClass a b c) YChar
| ha_call p t y : rule_called rs p = Some t -> has t y -> has (XCall p) y
| ha_ext p : rule_called rs p = None -> has (XCall p) YForeign
| ha_seq l ys : have l ys -> has (XSeq l) (seq_type ys)
| ha_alt l ys y : have l ys -> agree ys y -> has (XAlt l) y
| ha_star t y : has t y -> has (XStar t) (rep_type YList y)
| ha_plus t y : has t y -> has (XPlus t) (rep_type YList y)
| ha_opt t y : has t y -> has (XOpt t) (rep_type YOpt y)
| ha_not t : has (XNot t) YInv
| ha_and t : has (XAnd t) YInv
| ha_act t b p : has (XAct t b p) (act_type b p)
| ha_asc t ty : has (XAsc t ty) (asc_type ty)
| ha_span t y : has t y -> has (XSpan t) (seq_type [YRust (span_name ret); y])
| ha_range t : has (XRange t) (YRust (range_name ret))
with have : list tree -> list vtype -> Prop :=
| ha_nil : have [] []
| ha_cons t l y ys : has t y -> have l ys -> have (t :: l) (y :: ys).
Definition typable_tree (t : tree) : Prop := exists y, has t y.
Definition valueless (t : tree) : Prop := exists y, has t y /\ nothing y = true.
Definition valued (t : tree) : Prop := exists y, has t y /\ nothing y = false.
(** Of a Rust type, or of a type that may be one. *)
Definition claimable (t : tree) : Prop := (exists s, has t (YRust s)) \/ has t YForeign.

(** Where an expression stands: with its value; without ([a]: directly below an ascription of [^], [()] or, there, a Rust
    type); below an ascription of a Rust type, the values of which it builds. *)
Inductive place := Open | Hidden (a : option vtype) | Claimed.
Definition below (t : tree) : list tree :=
  match t with
  | XSeq l | XAlt l => l
  | XStar t | XPlus t | XOpt t | XSpan t | XNot t | XAnd t => [t]
  | _ => []
  end.
(** Neither an action, nor an ascription, nor a range. *)
Definition bare_node (t : tree) : bool := match t with XAct _ _ _ | XAsc _ _ | XRange _ => false | _ => true end.
Inductive fine : place -> tree -> Prop :=
(** an expression without value *)
| fi_nothing t : valueless t -> fine (Hidden None) t -> fine Open t
| fi_hidden a t : bare_node t = true -> (forall c, In c (below t) -> fine (Hidden a) c) -> fine (Hidden a) t
| fi_hidden_act a t b p : typable_tree t -> fine (Hidden None) t -> fine (Hidden a) (XAct t b p)
| fi_hidden_asc a t ty : (forall y, a = Some y -> akin y (asc_type ty)) -> fine (Hidden (Some (asc_type ty))) t -> fine (Hidden a) (XAsc t ty)
| fi_hidden_range a t : (forall y, a = Some y -> y = YUnit) -> fine (Hidden (Some YUnit)) t -> fine (Hidden a) (XRange t)
(** an expression with a value *)
| fi_open t : valued t -> bare_node t = true -> (forall c, In c (below t) -> fine Open c) -> fine Open t
| fi_open_act t b p : valued (XAct t b p) -> typable_tree t -> fine Open t -> fine Open (XAct t b p)
| fi_open_asc t ty : valued (XAsc t ty) -> typable_tree t -> fine Claimed t -> fine Open (XAsc t ty)
| fi_open_range t : fine (Hidden (Some YUnit)) t -> fine Open (XRange t)
(** an expression below an ascription *)
| fi_claimed_call p : claimable (XCall p) -> fine Claimed (XCall p)
| fi_claimed_seq l : claimable (XSeq l) -> (forall c, In c l -> valueless c -> fine Open c) -> (forall c, In c l -> valued c -> fine Claimed c) -> fine Claimed (XSeq l)
| fi_claimed_alt l : claimable (XAlt l) -> (forall c, In c l -> fine Claimed c) -> fine Claimed (XAlt l)
| fi_claimed_act t b p : claimable (XAct t b p) -> typable_tree t -> fine Open t -> fine Claimed (XAct t b p)
| fi_claimed_asc t ty : claimable (XAsc t ty) -> typable_tree t -> fine Claimed t -> fine Claimed (XAsc t ty).

(** Every rule has a type that Oak can write down, and is well typed inside. *)
Definition well_typed : Prop := forall n e, In (n, e) rs -> (exists y, has e y /\ ~ foreign_in y) /\ fine Open e.
End Types.
Scheme has_mind := Minimality for has Sort Prop with have_mind := Minimality for have Sort Prop.
Combined Scheme has_mutind from has_mind, have_mind.
