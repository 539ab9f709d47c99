(** The errors emitted by the analysis phase: src/liboak/middle/mod.rs, middle/analysis/{mod,duplicate,well_formedness}.rs.
    Analysis.v models what the phase returns; here, what it tells the user. *)
From Verif Require Import Base Grammar WellFormed Analysis.
Set Implicit Arguments. Unset Strict Implicit.
Open Scope string_scope. Open Scope nat_scope. Open Scope list_scope.

(** An error, without its text: middle/mod.rs:40-42; duplicate.rs:87-93 for a rule or a function, with its name;
    well_formedness.rs:170-236. *)
Inductive error := NoRule | DupRule (n : string) | DupFun (n : string) | Defect (d : diag).

Section Duplicate.
Variables (A : Type) (name : A -> string).
(** duplicate.rs:69-93: the names that are reported, in order; [kept] as in [populate]. *)
Fixpoint dup_errors (items : list A) (kept : list string) : list string :=
  match items with
  | [] => []
  | a :: items' =>
    if existsb (fun n => String.eqb n (name a)) kept then name a :: dup_errors items' kept
    else dup_errors items' (kept ++ [name a])
  end.
End Duplicate.

(** middle/mod.rs:28-47 and analysis/mod.rs:32-43: a duplicate is reported and the next passes run on the first definitions
    ([Partial::Fake]). *)
Definition middle_errors (fuel passes : nat) (fg : fgrammar) : wres (list error) :=
  match f_rules fg with
  | [] => WOk [NoRule]
  | _ =>
    let kept := map snd (fst (populate rname (f_rules fg) [] false)) in
    wbind (resolve fuel kept (f_exprs fg)) (fun es =>
    wbind (emitted (mkG kept es []) fuel passes) (fun ds =>
      WOk (map DupRule (dup_errors rname (f_rules fg) []) ++ map DupFun (dup_errors fst (flat_map fn_of (f_items fg)) []) ++ map Defect ds)))
  end.
