(** Specification of the concrete syntax of grammars, independent of the parser's code. *)
From Coq Require Import Ascii.
From Verif Require Import Base Grammar CharClass Analysis Front.
Set Implicit Arguments. Unset Strict Implicit.
Open Scope nat_scope. Open Scope list_scope.

(** ---------------- abstract trees ---------------- *)
Inductive tree :=
| XStr (s : text)
| XAny
| XClass (lead : bool) (items : list citem) (trail : bool)
| XCall (p : list string)
| XSeq (l : list tree)
| XAlt (l : list tree)
| XStar (t : tree) | XPlus (t : tree) | XOpt (t : tree)
| XNot (t : tree) | XAnd (t : tree)
| XAct (t : tree) (boxed : bool) (p : list string)
| XAsc (t : tree) (ty : ity)
| XSpan (t : tree)
| XRange (t : tree).

Section TreeInd.
Variable P : tree -> Prop.
Hypotheses
  (HStr : forall s, P (XStr s)) (HAny : P XAny) (HClass : forall a b c, P (XClass a b c)) (HCall : forall p, P (XCall p))
  (HSeq : forall l, Forall P l -> P (XSeq l)) (HAlt : forall l, Forall P l -> P (XAlt l))
  (HStar : forall t, P t -> P (XStar t)) (HPlus : forall t, P t -> P (XPlus t)) (HOpt : forall t, P t -> P (XOpt t))
  (HNot : forall t, P t -> P (XNot t)) (HAnd : forall t, P t -> P (XAnd t))
  (HAct : forall t b p, P t -> P (XAct t b p)) (HAsc : forall t ty, P t -> P (XAsc t ty))
  (HSpan : forall t, P t -> P (XSpan t)) (HRange : forall t, P t -> P (XRange t)).
Fixpoint tree_ind' (t : tree) : P t :=
  let all := fix all (l : list tree) : Forall P l :=
    match l with [] => Forall_nil P | t :: l' => @Forall_cons _ P t l' (tree_ind' t) (all l') end in
  match t with
  | XStr s => HStr s | XAny => HAny | XClass a b c => HClass a b c | XCall p => HCall p
  | XSeq l => HSeq (all l) | XAlt l => HAlt (all l)
  | XStar t => HStar (tree_ind' t) | XPlus t => HPlus (tree_ind' t) | XOpt t => HOpt (tree_ind' t)
  | XNot t => HNot (tree_ind' t) | XAnd t => HAnd (tree_ind' t)
  | XAct t b p => HAct b p (tree_ind' t) | XAsc t ty => HAsc ty (tree_ind' t)
  | XSpan t => HSpan (tree_ind' t) | XRange t => HRange (tree_ind' t)
  end.
End TreeInd.

(** The tree stored in the arena at index [i]; [... e] is stored as a range over [e:()]. *)
Fixpoint tree_at (es : list expr) (i : nat) (t : tree) {struct t} : Prop :=
  let fix trees (js : list nat) (l : list tree) {struct l} : Prop :=
    match js, l with
    | [], [] => True
    | j :: js', t :: l' => tree_at es j t /\ trees js' l'
    | _, _ => False
    end in
  match t with
  | XStr s => nth_error es i = Some (EStr s)
  | XAny => nth_error es i = Some EAny
  | XClass a b c => nth_error es i = Some (EClass (class_intervals a b c))
  | XCall p => nth_error es i = Some (EExt p)
  | XSeq l => exists js, nth_error es i = Some (ESeq js) /\ trees js l
  | XAlt l => exists js, nth_error es i = Some (EAlt js) /\ trees js l
  | XStar t => exists j, nth_error es i = Some (EStar j) /\ tree_at es j t
  | XPlus t => exists j, nth_error es i = Some (EPlus j) /\ tree_at es j t
  | XOpt t => exists j, nth_error es i = Some (EOpt j) /\ tree_at es j t
  | XNot t => exists j, nth_error es i = Some (ENot j) /\ tree_at es j t
  | XAnd t => exists j, nth_error es i = Some (EAnd j) /\ tree_at es j t
  | XAct t b p => exists j, nth_error es i = Some (EAct j b (ActPath p)) /\ tree_at es j t
  | XAsc t ty => exists j, nth_error es i = Some (EAsc j ty) /\ tree_at es j t
  | XSpan t => exists j, nth_error es i = Some (ESpan j) /\ tree_at es j t
  | XRange t => exists u j, nth_error es i = Some (ERange u) /\ nth_error es u = Some (EAsc j (IRegular TUnit)) /\ tree_at es j t
  end.
Definition trees_at (es : list expr) : list nat -> list tree -> Prop :=
  fix trees (js : list nat) (l : list tree) {struct l} : Prop :=
    match js, l with
    | [], [] => True
    | j :: js', t :: l' => tree_at es j t /\ trees js' l'
    | _, _ => False
    end.

(** ---------------- the syntax as a grammar over tokens ---------------- *)
Notation pt c j := (TPunct c%char j) (only parsing).
(** A segment of a path: an identifier, or one of four keywords. *)
Definition path_keywords : list string := ["super"; "self"; "Self"; "crate"]%string.
Inductive d_seg : tok -> string -> Prop :=
| seg_id s : d_seg (TId s) s
| seg_kw s : In s path_keywords -> d_seg (TKw s) s.
Inductive d_segs : list tok -> list string -> Prop :=
| segs_one k s : d_seg k s -> d_segs [k] [s]
| segs_more k s j ts l : d_seg k s -> d_segs ts l -> d_segs (k :: pt ":" true :: pt ":" j :: ts) (s :: l).
Inductive d_path : list tok -> list string -> Prop :=
| path_plain ts l : d_segs ts l -> d_path ts l
| path_colons j ts l : d_segs ts l -> d_path (pt ":" true :: pt ":" j :: ts) l.

Section Derive.
Variable rust_type : list tok -> option (string * list tok).
Variable rust_item : list tok -> option (rust_item * list tok).

(** After the colon: [()], [(^)] or a Rust type. *)
Inductive d_ty : list tok -> ity -> Prop :=
| ty_unit : d_ty [TGroup Paren []] (IRegular TUnit)
| ty_invisible j : d_ty [TGroup Paren [pt "^" j]] IInvisible
| ty_rust u s r : rust_type (u ++ r) = Some (s, r) -> d_ty u (IRegular (TRust s)).

(** From the loosest to the tightest: [/], [>], [..] and [...], juxtaposition, [:], [!] and [&], [*] [+] [?]. *)
Inductive d_choice : list tok -> tree -> Prop :=
| choice_one ts t : d_branch ts t -> d_choice ts t
| choice_alt ts l : d_branches ts l -> 2 <= length l -> d_choice ts (XAlt l)
with d_branches : list tok -> list tree -> Prop :=
| branches_one ts t : d_branch ts t -> d_branches ts [t]
| branches_more ts t j ts' l : d_branch ts t -> d_branches ts' l -> d_branches (ts ++ pt "/" j :: ts') (t :: l)
with d_branch : list tok -> tree -> Prop :=
| branch_plain ts t : d_spanned ts t -> d_branch ts t
| branch_act ts t j u p : d_spanned ts t -> d_path u p -> d_branch (ts ++ pt ">" j :: u) (XAct t false p)
| branch_box ts t j u p : d_spanned ts t -> d_path u p -> d_branch (ts ++ pt ">" j :: TKw "box" :: u) (XAct t true p)
with d_spanned : list tok -> tree -> Prop :=
| spanned_plain ts t : d_seq ts t -> d_spanned ts t
| spanned_span j ts t : d_seq ts t -> d_spanned (pt "." true :: pt "." j :: ts) (XSpan t)
| spanned_range j ts t : d_seq ts t -> d_spanned (pt "." true :: pt "." true :: pt "." j :: ts) (XRange t)
with d_seq : list tok -> tree -> Prop :=
| seq_one ts t : d_typed ts t -> d_seq ts t
| seq_many ts l : d_items ts l -> 2 <= length l -> d_seq ts (XSeq l)
with d_items : list tok -> list tree -> Prop :=
| items_one ts t : d_typed ts t -> d_items ts [t]
| items_more ts t ts' l : d_typed ts t -> d_items ts' l -> d_items (ts ++ ts') (t :: l)
with d_typed : list tok -> tree -> Prop :=
| typed_plain ts t : d_prefixed ts t -> d_typed ts t
| typed_asc ts t j u ty : d_prefixed ts t -> d_ty u ty -> d_typed (ts ++ pt ":" j :: u) (XAsc t ty)
with d_prefixed : list tok -> tree -> Prop :=
| prefixed_plain ts t : d_suffixed ts t -> d_prefixed ts t
| prefixed_not j ts t : d_suffixed ts t -> d_prefixed (pt "!" j :: ts) (XNot t)
| prefixed_and j ts t : d_suffixed ts t -> d_prefixed (pt "&" j :: ts) (XAnd t)
with d_suffixed : list tok -> tree -> Prop :=
| suffixed_plain ts t : d_atom ts t -> d_suffixed ts t
| suffixed_star ts t j : d_atom ts t -> d_suffixed (ts ++ [pt "*" j]) (XStar t)
| suffixed_plus ts t j : d_atom ts t -> d_suffixed (ts ++ [pt "+" j]) (XPlus t)
| suffixed_opt ts t j : d_atom ts t -> d_suffixed (ts ++ [pt "?" j]) (XOpt t)
with d_atom : list tok -> tree -> Prop :=
| atom_str s : d_atom [TStr s] (XStr s)
| atom_any j : d_atom [pt "." j] XAny
| atom_paren g t : d_choice g t -> d_atom [TGroup Paren g] t
| atom_call ts p : d_path ts p -> d_atom ts (XCall p)
| atom_class lead items trail : Forall no_dash items -> class_text lead items trail <> [] ->
    d_atom [TGroup Bracket [TStr (class_text lead items trail)]] (XClass lead items trail).

(** A grammar: attributes, then a rule or a Rust item, repeated.  [r: T = e] stands for [r = e: T]. *)
Inductive block := BRule (name : string) (body : tree) | BItem (it : Analysis.rust_item).
Inductive d_attrs : list tok -> list (list string) -> Prop :=
| attrs_nil : d_attrs [] []
| attrs_cons j1 j2 g u p ts l : d_path u p -> d_attrs ts l ->
    d_attrs (pt "#" j1 :: pt "!" j2 :: TGroup Bracket (u ++ g) :: ts) (p :: l).
Inductive d_block : list tok -> block -> Prop :=
| block_rule name j ts t : d_choice ts t -> d_block (TId name :: pt "=" j :: ts) (BRule name t)
| block_typed name j1 u ty j2 ts t : d_ty u ty -> d_choice ts t ->
    d_block (TId name :: pt ":" j1 :: u ++ pt "=" j2 :: ts) (BRule name (XAsc t ty))
| block_item u it r : rust_item (u ++ r) = Some (it, r) -> d_block u (BItem it).
Inductive d_grammar : list tok -> list (list string) -> list block -> Prop :=
| grammar_nil : d_grammar [] [] []
| grammar_cons u at_ v b ts l bs : d_attrs u at_ -> d_block v b -> d_grammar ts l bs ->
    d_grammar (u ++ v ++ ts) (at_ ++ l) (b :: bs).
End Derive.

(** What the front end delivers for a list of blocks. *)
Definition block_rules (bs : list block) : list (string * tree) := flat_map (fun b => match b with BRule n t => [(n, t)] | BItem _ => [] end) bs.
Definition block_items (bs : list block) : list Analysis.rust_item := flat_map (fun b => match b with BItem it => [it] | BRule _ _ => [] end) bs.
Definition rules_at (es : list expr) (rs : list rule) (l : list (string * tree)) : Prop :=
  Forall2 (fun r q => rname r = fst q /\ tree_at es (rexpr r) (snd q)) rs l.

(** ---------------- canonical text ---------------- *)
(** Precedence levels: 0 [/]; 1 [>]; 2 [..], [...]; 3 sequence; 4 [:]; 5 [!], [&]; 6 [*], [+], [?]; 7 atoms. *)
Definition level_of (t : tree) : nat :=
  match t with
  | XAlt _ => 0 | XAct _ _ _ => 1 | XSpan _ | XRange _ => 2 | XSeq _ => 3 | XAsc _ _ => 4 | XNot _ | XAnd _ => 5
  | XStar _ | XPlus _ | XOpt _ => 6 | _ => 7
  end.
Notation alone c := (TPunct c%char false) (only parsing).
Notation joint c := (TPunct c%char true) (only parsing).
Definition seg_tok (s : string) : tok := if existsb (String.eqb s) path_keywords then TKw s else TId s.
Fixpoint path_toks (p : list string) : list tok :=
  match p with
  | [] => []
  | [s] => [seg_tok s]
  | s :: p' => seg_tok s :: joint ":" :: alone ":" :: path_toks p'
  end.
Section Print.
(** How Rust types are written. *)
Variable ty_toks : string -> list tok.
Definition ity_toks (ty : ity) : list tok :=
  match ty with
  | IRegular TUnit => [TGroup Paren []]
  | IInvisible => [TGroup Paren [alone "^"]]
  | IRegular (TRust s) => ty_toks s
  | _ => []
  end.
Definition wrap (n lvl : nat) (ts : list tok) : list tok := if lvl <? n then [TGroup Paren ts] else ts.
Fixpoint print (t : tree) : list tok :=
  let at_ (n : nat) (t : tree) := wrap n (level_of t) (print t) in
  match t with
  | XStr s => [TStr s]
  | XAny => [alone "."]
  | XClass a b c => [TGroup Bracket [TStr (class_text a b c)]]
  | XCall p => path_toks p
  | XSeq l => (fix go (l : list tree) : list tok := match l with [] => [] | t :: l' => at_ 4 t ++ go l' end) l
  | XAlt l => (fix go (l : list tree) : list tok :=
                 match l with [] => [] | [t] => at_ 1 t | t :: l' => at_ 1 t ++ alone "/" :: go l' end) l
  | XStar t => at_ 7 t ++ [alone "*"]
  | XPlus t => at_ 7 t ++ [alone "+"]
  | XOpt t => at_ 7 t ++ [alone "?"]
  | XNot t => alone "!" :: at_ 6 t
  | XAnd t => alone "&" :: at_ 6 t
  | XAct t b p => at_ 2 t ++ alone ">" :: (if b then [TKw "box"] else []) ++ path_toks p
  | XAsc t ty => at_ 5 t ++ alone ":" :: ity_toks ty
  | XSpan t => joint "." :: alone "." :: at_ 3 t
  | XRange t => joint "." :: joint "." :: alone "." :: at_ 3 t
  end.
Definition print_at (n : nat) (t : tree) : list tok := wrap n (level_of t) (print t).
End Print.
