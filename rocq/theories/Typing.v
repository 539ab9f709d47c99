(** Type inference: src/liboak/middle/typing/{ast,type_rewriting,surface,depth,mod}.rs. *)
From Verif Require Import Base Grammar WellFormed Analysis.
Set Implicit Arguments. Unset Strict Implicit.
Open Scope string_scope. Open Scope nat_scope. Open Scope list_scope.

(** ---------------- typing/ast.rs ---------------- *)
(** typing/ast.rs:176, 190-202. *)
Definition kind_eqb (a b : rec_kind) : bool := match a, b with RUnit, RUnit | RPoly, RPoly => true | _, _ => false end.
Definition path_eqb (p q : rec_path) : bool := kind_eqb (fst p) (fst q) && list_eqb String.eqb (snd p) (snd q).
(** typing/ast.rs:230-237 [RecSet::union]. *)
Fixpoint rec_union (r1 r2 : rec_set) : rec_set :=
  match r2 with
  | [] => r1
  | p :: r2' => rec_union (if existsb (path_eqb p) r1 then r1 else r1 ++ [p]) r2'
  end.
(** typing/ast.rs:245-251. *)
Definition to_poly (r : rec_set) : rec_set := map (fun p => (RPoly, snd p)) r.
(** typing/ast.rs:261-263. *)
Definition is_poly (r : rec_set) : bool := existsb (fun p => kind_eqb (fst p) RPoly) r.
(** typing/ast.rs:239-243: two assertions. *)
Definition entry_point (r : rec_set) : wres string :=
  match r with (_, id :: _) :: _ => WOk id | _ => WPanic end.
(** typing/ast.rs:310-312. *)
Definition is_unit_kind (t : ity) : bool := match t with IInvisible | IRegular TUnit => true | _ => false end.

(** The types of the expressions; an index out of bounds panics (ast.rs:105-112, typing/ast.rs:93-95). *)
Notation table := (list ity) (only parsing).
Definition tget (T : table) (i : nat) : wres ity := match nth_error T i with Some t => WOk t | None => WPanic end.
Fixpoint tgets (T : table) (l : list nat) : wres (list ity) :=
  match l with [] => WOk [] | i :: l' => wbind (tget T i) (fun t => wbind (tgets T l') (fun ts => WOk (t :: ts))) end.

(** typing/ast.rs:300-308 and 381-408, mutually recursive through the table.
    Two Rust types are always equal; [Infer] equals nothing. *)
Fixpoint syn_eq (fuel : nat) (T : table) (t1 t2 : ity) : wres bool :=
  match fuel with
  | 0 => WLoop
  | S k =>
    let eq_at i j := wbind (tget T i) (fun a => wbind (tget T j) (fun b => syn_eq k T a b)) in
    match t1, t2 with
    | IRec r1, IRec r2 => WOk (list_eqb path_eqb r1 r2)
    | IInvisible, IInvisible => WOk true
    | IExternal, IExternal => WOk true
    | IRegular a, IRegular b =>
      match a, b with
      | TUnit, TUnit | TAtom, TAtom | TRust _, TRust _ => WOk true
      | TOptional i, TOptional j | TList i, TList j => eq_at i j
      | TTuple l1, TTuple l2 =>
        if length l1 =? length l2 then
          (fix all (l1 l2 : list nat) : wres bool :=
             match l1, l2 with
             | i :: l1', j :: l2' => wbind (eq_at i j) (fun b => if b then all l1' l2' else WOk false)
             | _, _ => WOk true
             end) l1 l2
        else WOk false
      | _, _ => WOk false
      end
    | _, _ => WOk false
    end
  end.

(** typing/ast.rs:314-320 and 436-447; the children of a tuple are all read, then tested in order. *)
Fixpoint contains_external (fuel : nat) (T : table) (t : ity) : wres bool :=
  match fuel with
  | 0 => WLoop
  | S k =>
    match t with
    | IInfer | IRec _ | IInvisible => WOk false
    | IExternal => WOk true
    | IRegular (TOptional i) | IRegular (TList i) => wbind (tget T i) (contains_external k T)
    | IRegular (TTuple l) =>
      wbind (tgets T l) (fun ts =>
        (fix any (ts : list ity) : wres bool :=
           match ts with [] => WOk false | a :: ts' => wbind (contains_external k T a) (fun b => if b then WOk true else any ts') end) ts)
    | IRegular _ => WOk false
    end
  end.

(** ---------------- type_rewriting.rs ---------------- *)
Section Rewriting.
Variable G : grammar.
Variable T : table.

(** type_rewriting.rs:40-48: the two loops, flattened. *)
Fixpoint first_non_rec (ids : list string) : wres ity :=
  match ids with
  | [] => WOk IInvisible
  | id :: ids' =>
    match find_rule G id with
    | None => WPanic
    | Some rl => wbind (tget T (rexpr rl)) (fun t => match t with IRec _ => first_non_rec ids' | t => WOk t end)
    end
  end.
(** type_rewriting.rs:35-52. *)
Definition reduce_rec (t : ity) : wres ity :=
  match t with
  | IRec r => if is_poly r then WOk IInvisible else first_non_rec (flat_map snd r)
  | t => WOk t
  end.
(** type_rewriting.rs:28-33. *)
Definition reduce_rec_entry_point (id : string) (t : ity) : wres ity :=
  match t with
  | IRec r => wbind (entry_point r) (fun e => if String.eqb e id then reduce_rec t else WOk t)
  | t => WOk t
  end.
(** type_rewriting.rs:54-62: [None] is [unreachable!]; the placeholder type is ["_"]. *)
Definition reduce_final (t : ity) : wres ty :=
  match t with
  | IInvisible => WOk TUnit
  | IInfer | IRec _ => WPanic
  | IExternal => WOk (TRust "_")
  | IRegular t => WOk t
  end.
(** type_rewriting.rs:82-89. *)
Definition reduce_unary (i : nat) (t : ity) : wres ity :=
  wbind (tget T i) (fun ti => WOk (match ti with IInvisible => IInvisible | IRec r => IRec (to_poly r) | _ => t end)).
(** type_rewriting.rs:115-124. *)
Fixpoint tuple_inlining (l : list nat) : wres (list nat) :=
  match l with
  | [] => WOk []
  | i :: l' => wbind (tget T i) (fun t => wbind (tuple_inlining l') (fun r =>
                 WOk (match t with IRegular (TTuple js) => js ++ r | _ => i :: r end)))
  end.
(** type_rewriting.rs:126-137. *)
Fixpoint tuple_scan (l : list nat) (r : rec_set) (poly : bool) : wres (rec_set * bool) :=
  match l with
  | [] => WOk (r, poly)
  | i :: l' => wbind (tget T i) (fun t =>
      match t with
      | IRec r' => tuple_scan l' (rec_union r r') poly
      | IExternal => tuple_scan l' r true
      | IRegular TUnit => tuple_scan l' r poly
      | IRegular _ => tuple_scan l' r true
      | _ => tuple_scan l' r poly
      end)
  end.
(** type_rewriting.rs:138-147. *)
Definition tuple_rec (l : list nat) : wres (option ity) :=
  wbind (tuple_scan l [] false) (fun q =>
    WOk (match fst q with [] => None | r => Some (IRec (if snd q then to_poly r else r)) end)).
(** type_rewriting.rs:149-153, 155-159: [filter]. *)
Fixpoint tuple_drop (p : ity -> bool) (l : list nat) : wres (list nat) :=
  match l with
  | [] => WOk []
  | i :: l' => wbind (tget T i) (fun t => wbind (tuple_drop p l') (fun r => WOk (if p t then r else i :: r)))
  end.
Definition is_invisible (t : ity) : bool := match t with IInvisible => true | _ => false end.
Definition is_regular_unit (t : ity) : bool := match t with IRegular TUnit => true | _ => false end.
(** type_rewriting.rs:91-113; the assertion is the first case. *)
Definition reduce_tuple (l : list nat) : wres ity :=
  match l with
  | [] => WPanic
  | _ =>
    wbind (tuple_inlining l) (fun l =>
    wbind (tuple_rec l) (fun r =>
    match r with
    | Some t => WOk t
    | None =>
      wbind (tuple_drop is_invisible l) (fun l =>
      match l with
      | [] => WOk IInvisible
      | _ => wbind (tuple_drop is_regular_unit l) (fun l =>
             match l with
             | [] => WOk (IRegular TUnit)
             | [i] => tget T i
             | l => WOk (IRegular (TTuple l))
             end)
      end)
    end))
  end.
(** type_rewriting.rs:64-80. *)
Definition reduce (t : ity) : wres ity :=
  match t with
  | IInfer => WPanic
  | IRegular (TOptional i) | IRegular (TList i) => reduce_unary i t
  | IRegular (TTuple l) => reduce_tuple l
  | t => WOk t
  end.
(** type_rewriting.rs:175-183: [any]. *)
Fixpoint contained (fuel : nat) (t : ity) (l : list ity) : wres bool :=
  match l with [] => WOk false | a :: l' => wbind (syn_eq fuel T t a) (fun b => if b then WOk true else contained fuel t l') end.
(** type_rewriting.rs:170-185. *)
Fixpoint sum_scan (fuel : nat) (ts : list ity) (r : rec_set) (non_rec : list ity) : wres (rec_set * list ity) :=
  match ts with
  | [] => WOk (r, non_rec)
  | IRec r' :: ts' => sum_scan fuel ts' (rec_union r r') non_rec
  | t :: ts' => wbind (contained fuel t non_rec) (fun b => sum_scan fuel ts' r (if b then non_rec else non_rec ++ [t]))
  end.
(** type_rewriting.rs:187-212: the verdict; [None] is [Err]. *)
Definition is_external (t : ity) : bool := match t with IExternal => true | _ => false end.
Definition sum_verdict (r : rec_set) (non_rec : list ity) : option ity :=
  let rest :=
    match non_rec with
    | [] => Some (IRec r)
    | _ => if forallb is_unit_kind non_rec then Some IInvisible else None
    end in
  if is_poly r then None
  else match non_rec with
       | [t] => Some t
       | [t0; t1] => if is_external t0 then Some t1 else if is_external t1 then Some t0 else rest
       | _ => rest
       end.
(** type_rewriting.rs:167-213; the assertion is the first case. *)
Definition reduce_sum (fuel : nat) (ts : list ity) : wres (option ity) :=
  match ts with
  | [] => WPanic
  | _ => wbind (sum_scan fuel ts [] []) (fun q => WOk (sum_verdict (fst q) (snd q)))
  end.
End Rewriting.

(** ---------------- surface.rs ---------------- *)
(** surface.rs:25-30; the recursion path is an argument of the visitor, innermost rule first. *)
Record tst := mkT { tys : list ity; terr : bool }.
(** surface.rs:76-79 [type_expr]. *)
Definition tset (i : nat) (t : ity) (st : tst) : tst := mkT (update (tys st) i t) (terr st).
Definition tfail (st : tst) : tst := mkT (tys st) true.

(** What inference reads of the rest of the grammar: the return type of a Rust function of the
    grammar ([None]: no such function; [Some None]: no return type), the types of spans and ranges
    (ast.rs:92-100), and fuel for the comparison of types. *)
Record tenv := mkEnv { ret_of : string -> option (option string); span_ty : string; range_ty : string; cmp_fuel : nat }.

(** typing/ast.rs:63-91; the errors on unit actions, which do not stop inference, are in UnitActions.v. *)
Definition action_type (E : tenv) (boxed : bool) (f : action) : ity :=
  match f with
  | ActPath [id] =>
    match ret_of E id with
    | None => IExternal
    | Some None => IRegular TUnit
    | Some (Some t) => IRegular (TRust (if boxed then "Box<" ++ t ++ ">" else t))
    end
  | _ => IExternal
  end.

Fixpoint take_while {A} (p : A -> bool) (l : list A) : list A :=
  match l with [] => [] | a :: l' => if p a then a :: take_while p l' else [] end.

Section Surface.
Variable G : grammar.
Variable E : tenv.

(** surface.rs:81-89. *)
Definition rec_type (path : list string) (id : string) : ity :=
  IRec [(RUnit, id :: take_while (fun r => negb (String.eqb r id)) path)].

(** surface.rs:52-70, given the visitor of expressions. *)
Definition srule (ve : list string -> nat -> tst -> wres (ity * tst)) (path : list string) (id : string) (st : tst)
  : wres (ity * tst) :=
  match find_rule G id with
  | None => WPanic
  | Some rl =>
    wbind (tget (tys st) (rexpr rl)) (fun t =>
    match t with
    | IInfer =>
      if existsb (String.eqb id) path then WOk (rec_type path id, st)
      else wbind (ve (id :: path) (rexpr rl) st) (fun q =>
           wbind (reduce_rec_entry_point G (tys (snd q)) id (fst q)) (fun t => WOk (t, tset (rexpr rl) t (snd q))))
    | t => WOk (t, st)
    end)
  end.

(** visitor.rs:158-161 [walk_exprs]. *)
Definition sexprs (ve : nat -> tst -> wres (ity * tst)) : list nat -> tst -> wres (list ity * tst) :=
  fix go (l : list nat) (st : tst) : wres (list ity * tst) :=
  match l with
  | [] => WOk ([], st)
  | i :: l' => wbind (ve i st) (fun q => wbind (go l' (snd q)) (fun r => WOk (fst q :: fst r, snd r)))
  end.

(** surface.rs:131-197 with visitor.rs:102-156: the type of an expression before reduction. *)
Definition swalk (ve : list string -> nat -> tst -> wres (ity * tst)) (path : list string) (e : expr) (st : tst)
  : wres (ity * tst) :=
  let child i t := wbind (ve path i st) (fun q => WOk (t, snd q)) in
  match e with
  | EStr _ | ENot _ | EAnd _ => WOk (IInvisible, st)
  | EAsc _ t => WOk (t, st)
  | EAny | EClass _ => WOk (IRegular TAtom, st)
  | EAct _ boxed f => WOk (action_type E boxed f, st)
  | ENT id => srule ve path id st
  | EExt _ => WOk (IExternal, st)
  | EStar i | EPlus i => child i (IRegular (TList i))
  | EOpt i => child i (IRegular (TOptional i))
  | ESpan i => wbind (ve path i st) (fun q => WOk (IRegular (TTuple [length (tys (snd q)) - 1; i]), snd q))
  | ERange i => child i (IRegular (TRust (range_ty E)))
  | ESeq l => wbind (sexprs (ve path) l st) (fun q => WOk (IRegular (TTuple l), snd q))
  | EAlt l => wbind (sexprs (ve path) l st) (fun q =>
                wbind (reduce_sum (tys (snd q)) (cmp_fuel E) (fst q)) (fun r =>
                WOk (match r with Some t => (t, snd q) | None => (IInvisible, tfail (snd q)) end)))
  end.

(** surface.rs:118-129. *)
Fixpoint sexpr (fuel : nat) (path : list string) (i : nat) (st : tst) : wres (ity * tst) :=
  match fuel with
  | 0 => WLoop
  | S k =>
    wbind (tget (tys st) i) (fun t =>
    match t with
    | IInfer =>
      match expr_of G i with
      | None => WPanic
      | Some e => wbind (swalk (sexpr k) path e st) (fun q =>
                  wbind (reduce (tys (snd q)) (fst q)) (fun t => WOk (t, tset i t (snd q))))
      end
    | t => WOk (t, st)
    end)
  end.

(** surface.rs:41-50. *)
Fixpoint surface_from (fuel : nat) (rs : list rule) (st : tst) : wres tst :=
  match rs with
  | [] => WOk st
  | rl :: rs' => wbind (srule (sexpr fuel) [] (rname rl) st) (fun q => surface_from fuel rs' (snd q))
  end.
Definition surface (fuel : nat) (st : tst) : wres tst := surface_from fuel (rules G) st.

(** ---------------- depth.rs ---------------- *)
(** depth.rs:74-80: every type is rewritten with respect to the same table. *)
Fixpoint reduce_recs (T : list ity) (l : list ity) : wres (list ity) :=
  match l with
  | [] => WOk []
  | t :: l' => wbind (reduce_rec G T t) (fun t' => wbind (reduce_recs T l') (fun r => WOk (t' :: r)))
  end.
Definition reduce_all_rec (st : tst) : wres tst := wbind (reduce_recs (tys st) (tys st)) (fun T => WOk (mkT T (terr st))).

(** depth.rs:135-145. *)
Definition check_ascription (t aty : ity) (st : tst) : wres tst :=
  wbind (syn_eq (cmp_fuel E) (tys st) t aty) (fun b => WOk (if b then st else tfail st)).

Definition dexprs (vd : nat -> tst -> wres tst) : list nat -> tst -> wres tst :=
  fix go (l : list nat) (st : tst) : wres tst :=
  match l with [] => WOk st | i :: l' => wbind (vd i st) (go l') end.

(** depth.rs:183-219 with visitor.rs:102-161: under a unit type [uu], under an ascription [asc]. *)
Definition dwalk (se : nat -> tst -> wres (ity * tst)) (vd : bool -> option ity -> nat -> tst -> wres tst)
  (uu : bool) (asc : option ity) (e : expr) (st : tst) : wres tst :=
  match e with
  | EStr _ | EAny | EClass _ | ENT _ | EExt _ => WOk st
  | ESeq l =>
    match asc with
    | Some _ => dexprs (fun i st => wbind (tget (tys st) i) (fun t => vd uu (if is_unit_kind t then None else asc) i st)) l st
    | None => dexprs (vd uu None) l st
    end
  | EAlt l => dexprs (vd uu asc) l st
  | EStar i | EPlus i | EOpt i | ENot i | EAnd i | ESpan i | ERange i => vd uu asc i st
  | EAsc i t =>
    wbind (match asc with Some aty => check_ascription t aty st | None => WOk st end) (fun st =>
    wbind (if uu then WOk st else wbind (se i st) (fun q => WOk (snd q))) (fun st => vd uu (Some t) i st))
  | EAct i _ _ => wbind (se i st) (fun q => vd uu None i (snd q))
  end.

(** depth.rs:154-181. *)
Fixpoint dexpr (fuel sfuel : nat) (uu : bool) (asc : option ity) (i : nat) (st : tst) : wres tst :=
  match fuel with
  | 0 => WLoop
  | S k =>
    wbind (tget (tys st) i) (fun t =>
    match expr_of G i with
    | None => WPanic
    | Some e =>
      let walk uu st := dwalk (sexpr sfuel []) (dexpr k sfuel) uu asc e st in
      if uu then walk true (tset i (IRegular TUnit) st)
      else match asc with
           | None => walk (is_unit_kind t) st
           | Some aty =>
             if is_external t then walk false (tset i aty st)
             else wbind (check_ascription t aty st) (walk false)
           end
    end)
  end.
(** depth.rs:101-105. *)
Definition depth (fuel sfuel : nat) (st : tst) : wres tst := dexprs (dexpr fuel sfuel false None) (map rexpr (rules G)) st.

(** depth.rs:82-87. *)
Fixpoint reduce_finals (l : list ity) : wres (list ty) :=
  match l with
  | [] => WOk []
  | t :: l' => wbind (reduce_final t) (fun t' => wbind (reduce_finals l') (fun r => WOk (t' :: r)))
  end.
(** depth.rs:89-99. *)
Fixpoint rules_have_type (T : list ity) (rs : list rule) : wres bool :=
  match rs with
  | [] => WOk true
  | rl :: rs' => wbind (tget T (rexpr rl)) (fun t => wbind (contains_external (cmp_fuel E) T t) (fun b =>
                 wbind (rules_have_type T rs') (fun ok => WOk (negb b && ok))))
  end.

(** depth.rs:32-53 from the state after [IGrammar::from]; the warning on recursive types is in
    Warnings.v; the printing is not modelled.  [None]: errors were reported. *)
Definition infer_from (fuel : nat) (st : tst) : wres (option (list ty)) :=
  wbind (surface fuel st) (fun st => if terr st then WOk None else
  wbind (reduce_all_rec st) (fun st =>
  wbind (depth fuel fuel st) (fun st => if terr st then WOk None else
  wbind (reduce_finals (tys st)) (fun out =>
  wbind (rules_have_type (tys st) (rules G)) (fun ok => WOk (if ok then Some out else None)))))).
End Surface.

(** typing/ast.rs:34-51, 114-125: one slot per expression, and one for the type of spans. *)
Definition igrammar (G : grammar) : grammar := mkG (rules G) (exprs G ++ [ESpan 0]) [].
Definition itable (G : grammar) (E : tenv) : list ity := repeat IInfer (length (exprs G)) ++ [IRegular (TRust (span_ty E))].
(** typing/mod.rs:29-32, depth.rs:32-53, typing/ast.rs:97-108. *)
Definition type_inference (E : tenv) (fuel : nat) (G : grammar) : wres (option grammar) :=
  wbind (infer_from (igrammar G) E fuel (mkT (itable G E) false)) (fun r =>
    WOk (match r with Some ts => Some (mkG (rules G) (exprs G ++ [ESpan 0]) ts) | None => None end)).
