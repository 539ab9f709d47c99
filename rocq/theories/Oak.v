(** The macro as a whole: src/liboak/lib.rs, middle/mod.rs, back/compiler/grammar.rs. *)
From Verif Require Import Base Grammar PegSpec Target Compile WellFormed CharClass Analysis Typing Front RType.
Set Implicit Arguments. Unset Strict Implicit.
Open Scope string_scope. Open Scope nat_scope. Open Scope list_scope.

(** The signature of a generated function (context.rs:72-101): it takes a [ParseState<stream, ()>] and returns a
    [ParseState<stream, value>]; its generic parameters, copied from the alias of the stream, are not modelled. *)
Record fsig := mkSig { sg_stream : string; sg_value : rty }.
(** A generated function, as an item: its rule, its signature and its body. *)
Inductive mod_item :=
| MItem (it : rust_item) | MRecognizer (rule : string) (sg : fsig) (f : func) | MParser (rule : string) (sg : fsig) (f : func)
| MFun (name src : string).

Section Oak.
(** The parsers of Rust types and items (crate syn), and the return type of a function given its text. *)
Variables (rust_type : list tok -> option (string * list tok)) (rust_item : list tok -> option (rust_item * list tok)).
Variable return_type : string -> option string.

(** ast.rs:86-100, with quote!'s text for the name of the stream type; its generic parameters, which syn
    copies, are read off the text of the alias by [generics]. *)
Variable generics : string -> string.
Definition stream_ty (g : agrammar) : string := fst (a_stream g) ++ generics (snd (a_stream g)).
Definition range_type (g : agrammar) : string := "Range<" ++ stream_ty g ++ ">".
Definition span_type (g : agrammar) : string := "<" ++ range_type g ++ " as StreamSpan>::Output".
(** typing/ast.rs:63-91: what inference reads of the grammar. *)
Definition env_of (g : agrammar) (fuel : nat) : tenv :=
  mkEnv (fun id => match find (fun q => String.eqb (fst q) id) (a_funs g) with Some q => Some (return_type (snd q)) | None => None end)
        (span_type g) (range_type g) fuel.

(** back/compiler/grammar.rs:63-67 with rule.rs:26-32; a panic of the generator is a panic of the macro. *)
Definition of_cres (A : Type) (r : cres A) : wres A := match r with COk a => WOk a | CErr OutOfFuel => WLoop | CErr _ => WPanic end.
(** context.rs:52-70: [()] for recognizers and for the parsers that are an alias of a recognizer (rule.rs:54-77). *)
Definition parser_value (G : grammar) (rl : rule) : wres rty :=
  if is_unit G (rexpr rl) then WOk RTUnit else compile_type (S (length (exprs G))) G (rexpr rl).
Fixpoint compile_rules (stream : string) (G : grammar) (rs : list rule) : wres (list mod_item) :=
  match rs with
  | [] => WOk []
  | rl :: rs' =>
    wbind (of_cres (gen_recognizer G rl)) (fun r =>
    wbind (of_cres (gen_parser G rl)) (fun p =>
    wbind (parser_value G rl) (fun t =>
    wbind (compile_rules stream G rs') (fun l =>
    WOk (MRecognizer (rname rl) (mkSig stream RTUnit) r :: MParser (rname rl) (mkSig stream t) p :: l)))))
  end.
(** back/compiler/grammar.rs:55-61; the functions of the HashMap come in some order, here the source's. *)
Definition compile_mod_content (g : agrammar) (G : grammar) : wres (list mod_item) :=
  wbind (compile_rules (stream_ty g) G (rules G)) (fun l =>
    WOk (map MItem (a_items g) ++ l ++ map (fun q => MFun (fst q) (snd q)) (a_funs g))).

(** lib.rs:34-42 with middle/mod.rs:28-36.  [WOk None]: a diagnostic and no code; [WOk (Some m)]: the items
    of the module after the fixed [use] lines; [WPanic]: the macro panics. *)
Definition oak (fuel : nat) (ts : list tok) : wres (option (list mod_item)) :=
  match parse_grammar rust_type rust_item ts with
  | FErr => WOk None
  | FLoop => WLoop
  | FOk fg =>
    wbind (middle fuel fuel fg) (fun r =>
    match r with
    | None => WOk None
    | Some g =>
      wbind (type_inference (env_of g fuel) fuel (shape g)) (fun r =>
      match r with
      | None => WOk None
      | Some G => wbind (compile_mod_content g G) (fun m => WOk (Some m))
      end)
    end)
  end.
End Oak.

(** The functions of a module, by name. *)
Definition prog_of (items : list mod_item) (m : mode) (id : string) : option func :=
  find_map (fun it => match m, it with
                      | Rec, MRecognizer n _ f | Par, MParser n _ f => if String.eqb n id then Some f else None
                      | _, _ => None
                      end) items.
