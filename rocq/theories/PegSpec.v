(** Specification, independent of the implementation: Ford's PEG semantics, and its extension with
    the values parsers build and the trace of events (terminal failures, action calls). *)
From Verif Require Import Base Grammar.
Set Implicit Arguments.

(** Values of the generated parsers.  [VAct f args] is the result of calling the user's action,
    [VCtor] a unit variant, [VExt] the result of an external parser, positions are byte offsets. *)
Inductive value :=
| VUnit
| VChar (c : N)
| VNone
| VSome (v : value)
| VVec (l : list value)
| VTuple (l : list value)
| VAct (f : action) (args : list value)
| VCtor (f : action)
| VBox (v : value)
| VSpan (lo hi : N)
| VRange (lo hi : nat)
| VExt (tag : nat).

(** [()], [v], or a tuple: how Rust reads a parenthesised list of variables. *)
Definition tup (vs : list value) : value :=
  match vs with [] => VUnit | [v] => v | _ => VTuple vs end.

Inductive mode := Rec | Par.

(** A position is the list of unread characters. *)
Inductive event :=
| EvErr (at_ : text) (msg : list N)
| EvAct (f : action) (args : list value).

(** What is matched: an expression, a sequence, an ordered choice or a repetition. *)
Inductive item := IE (i : nat) | ISeq (l : list nat) | IAlt (l : list nat) | IStar (i : nat).

(** Behaviour of external rules. *)
Definition extern := mode -> list string -> text -> option (text * list value) -> list event -> Prop.

Section Spec.
Variable G : grammar.

(** ---------------- Ford's recognition relation ---------------- *)
Section Ford.
Variable X : list string -> text -> option text -> Prop.

Inductive matches : item -> text -> option text -> Prop :=
| m_str_ok i lit rest : expr_of G i = Some (EStr lit) -> matches (IE i) (lit ++ rest) (Some rest)
| m_str_fail i lit s : expr_of G i = Some (EStr lit) -> (forall rest, s <> lit ++ rest) ->
    matches (IE i) s None
| m_any_ok i c s : expr_of G i = Some EAny -> matches (IE i) (c :: s) (Some s)
| m_any_fail i : expr_of G i = Some EAny -> matches (IE i) [] None
| m_class_ok i cls c s : expr_of G i = Some (EClass cls) -> in_class c cls ->
    matches (IE i) (c :: s) (Some s)
| m_class_fail i cls c s : expr_of G i = Some (EClass cls) -> ~ in_class c cls ->
    matches (IE i) (c :: s) None
| m_class_eof i cls : expr_of G i = Some (EClass cls) -> matches (IE i) [] None
| m_nt i id rl s r : expr_of G i = Some (ENT id) -> find_rule G id = Some rl ->
    matches (IE (rexpr rl)) s r -> matches (IE i) s r
| m_ext i p s r : expr_of G i = Some (EExt p) -> X p s r -> matches (IE i) s r
| m_seq i l s r : expr_of G i = Some (ESeq l) -> matches (ISeq l) s r -> matches (IE i) s r
| m_alt i l s r : expr_of G i = Some (EAlt l) -> matches (IAlt l) s r -> matches (IE i) s r
| m_star i e s r : expr_of G i = Some (EStar e) -> matches (IStar e) s r -> matches (IE i) s r
| m_plus_ok i e s s1 r : expr_of G i = Some (EPlus e) -> matches (IE e) s (Some s1) ->
    matches (IStar e) s1 r -> matches (IE i) s r
| m_plus_fail i e s : expr_of G i = Some (EPlus e) -> matches (IE e) s None -> matches (IE i) s None
| m_opt_some i e s s1 : expr_of G i = Some (EOpt e) -> matches (IE e) s (Some s1) ->
    matches (IE i) s (Some s1)
| m_opt_none i e s : expr_of G i = Some (EOpt e) -> matches (IE e) s None -> matches (IE i) s (Some s)
| m_not_ok i e s : expr_of G i = Some (ENot e) -> matches (IE e) s None -> matches (IE i) s (Some s)
| m_not_fail i e s s1 : expr_of G i = Some (ENot e) -> matches (IE e) s (Some s1) ->
    matches (IE i) s None
| m_and_ok i e s s1 : expr_of G i = Some (EAnd e) -> matches (IE e) s (Some s1) ->
    matches (IE i) s (Some s)
| m_and_fail i e s : expr_of G i = Some (EAnd e) -> matches (IE e) s None -> matches (IE i) s None
| m_act i e b f s r : expr_of G i = Some (EAct e b f) -> matches (IE e) s r -> matches (IE i) s r
| m_asc i e t s r : expr_of G i = Some (EAsc e t) -> matches (IE e) s r -> matches (IE i) s r
| m_span i e s r : expr_of G i = Some (ESpan e) -> matches (IE e) s r -> matches (IE i) s r
| m_range i e s r : expr_of G i = Some (ERange e) -> matches (IE e) s r -> matches (IE i) s r
| m_seq_nil s : matches (ISeq []) s (Some s)
| m_seq_cons i l s s1 r : matches (IE i) s (Some s1) -> matches (ISeq l) s1 r -> matches (ISeq (i :: l)) s r
| m_seq_fail i l s : matches (IE i) s None -> matches (ISeq (i :: l)) s None
| m_alt_nil s : matches (IAlt []) s None
| m_alt_first i l s s1 : matches (IE i) s (Some s1) -> matches (IAlt (i :: l)) s (Some s1)
| m_alt_next i l s r : matches (IE i) s None -> matches (IAlt l) s r -> matches (IAlt (i :: l)) s r
| m_star_stop e s : matches (IE e) s None -> matches (IStar e) s (Some s)
| m_star_more e s s1 r : matches (IE e) s (Some s1) -> matches (IStar e) s1 r -> matches (IStar e) s r.
End Ford.

(** ---------------- values and traces ---------------- *)
Section Values.
Variable X : extern.
(** Offsets of a position in the whole text. *)
Variable off : text -> nat.

Definition vals (m : mode) (vs : list value) : list value := match m with Rec => [] | Par => vs end.

(** In parsing mode an expression whose type is unit is only recognised. *)
Definition active (m : mode) (i : nat) : Prop :=
  match m with Rec => True | Par => is_unit G i = false end.

Definition act_value (f : action) (child_unit boxed : bool) (args : list value) : value :=
  let v := if unit_variant f child_unit then VCtor f else VAct f args in
  if boxed then VBox v else v.
Definition act_events (f : action) (child_unit : bool) (args : list value) : list event :=
  if unit_variant f child_unit then [] else [EvAct f args].

Definition u32_of (n : nat) : N := (N.of_nat n mod 4294967296)%N.

Inductive ep : mode -> item -> text -> option (text * list value) -> list event -> Prop :=
| ep_unit i s r evs : is_unit G i = true -> ep Rec (IE i) s r evs -> ep Par (IE i) s r evs
| ep_str_ok m i lit rest : active m i -> expr_of G i = Some (EStr lit) ->
    ep m (IE i) (lit ++ rest) (Some (rest, [])) []
| ep_str_fail m i lit s : active m i -> expr_of G i = Some (EStr lit) -> (forall rest, s <> lit ++ rest) ->
    ep m (IE i) s None [EvErr s lit]
| ep_any_ok m i c s : active m i -> expr_of G i = Some EAny ->
    ep m (IE i) (c :: s) (Some (s, vals m [VChar c])) []
| ep_any_fail m i : active m i -> expr_of G i = Some EAny -> ep m (IE i) [] None [EvErr [] any_desc]
| ep_class_ok m i cls c s : active m i -> expr_of G i = Some (EClass cls) -> in_class c cls ->
    ep m (IE i) (c :: s) (Some (s, vals m [VChar c])) []
| ep_class_fail m i cls c s : active m i -> expr_of G i = Some (EClass cls) -> ~ in_class c cls ->
    ep m (IE i) (c :: s) None [EvErr (c :: s) (class_desc cls)]
| ep_class_eof m i cls : active m i -> expr_of G i = Some (EClass cls) ->
    ep m (IE i) [] None [EvErr [] (class_desc cls)]
| ep_nt m i id rl s r evs : active m i -> expr_of G i = Some (ENT id) -> find_rule G id = Some rl ->
    ep m (IE (rexpr rl)) s r evs -> ep m (IE i) s r evs
| ep_ext m i p s r evs : active m i -> expr_of G i = Some (EExt p) -> X m p s r evs -> ep m (IE i) s r evs
| ep_seq m i l s r evs : active m i -> expr_of G i = Some (ESeq l) ->
    ep m (ISeq l) s r evs -> ep m (IE i) s r evs
| ep_alt m i l s r evs : active m i -> expr_of G i = Some (EAlt l) ->
    ep m (IAlt l) s r evs -> ep m (IE i) s r evs
| ep_star m i e s s1 vs evs : active m i -> expr_of G i = Some (EStar e) ->
    ep m (IStar e) s (Some (s1, vs)) evs -> ep m (IE i) s (Some (s1, vals m [VVec vs])) evs
| ep_plus_ok m i e s s1 vs1 evs1 s2 vs2 evs2 : active m i -> expr_of G i = Some (EPlus e) ->
    ep m (IE e) s (Some (s1, vs1)) evs1 -> ep m (IStar e) s1 (Some (s2, vs2)) evs2 ->
    ep m (IE i) s (Some (s2, vals m [VVec (tup vs1 :: vs2)])) (evs1 ++ evs2)
| ep_plus_fail m i e s evs : active m i -> expr_of G i = Some (EPlus e) ->
    ep m (IE e) s None evs -> ep m (IE i) s None evs
| ep_opt_some m i e s s1 vs evs : active m i -> expr_of G i = Some (EOpt e) ->
    ep m (IE e) s (Some (s1, vs)) evs -> ep m (IE i) s (Some (s1, vals m [VSome (tup vs)])) evs
| ep_opt_none m i e s evs : active m i -> expr_of G i = Some (EOpt e) ->
    ep m (IE e) s None evs -> ep m (IE i) s (Some (s, vals m [VNone])) evs
| ep_not_ok i e s evs : expr_of G i = Some (ENot e) -> ep Rec (IE e) s None evs ->
    ep Rec (IE i) s (Some (s, [])) evs
| ep_not_fail i e s s1 vs evs : expr_of G i = Some (ENot e) -> ep Rec (IE e) s (Some (s1, vs)) evs ->
    ep Rec (IE i) s None evs
| ep_and_ok i e s s1 vs evs : expr_of G i = Some (EAnd e) -> ep Rec (IE e) s (Some (s1, vs)) evs ->
    ep Rec (IE i) s (Some (s, [])) evs
| ep_and_fail i e s evs : expr_of G i = Some (EAnd e) -> ep Rec (IE e) s None evs ->
    ep Rec (IE i) s None evs
| ep_act_rec i e b f s r evs : expr_of G i = Some (EAct e b f) -> ep Rec (IE e) s r evs ->
    ep Rec (IE i) s r evs
| ep_act_ok i e b f s s1 vs evs : is_unit G i = false -> expr_of G i = Some (EAct e b f) ->
    ep Par (IE e) s (Some (s1, vs)) evs ->
    ep Par (IE i) s (Some (s1, [act_value f (is_unit G e) b vs])) (evs ++ act_events f (is_unit G e) vs)
| ep_act_fail i e b f s evs : is_unit G i = false -> expr_of G i = Some (EAct e b f) ->
    ep Par (IE e) s None evs -> ep Par (IE i) s None evs
| ep_asc m i e t s r evs : active m i -> expr_of G i = Some (EAsc e t) ->
    ep m (IE e) s r evs -> ep m (IE i) s r evs
| ep_span_rec i e s r evs : expr_of G i = Some (ESpan e) -> ep Rec (IE e) s r evs ->
    ep Rec (IE i) s r evs
| ep_span_ok i e s s1 vs evs : is_unit G i = false -> expr_of G i = Some (ESpan e) ->
    ep Par (IE e) s (Some (s1, vs)) evs ->
    ep Par (IE i) s (Some (s1, VSpan (u32_of (off s)) (u32_of (off s1)) :: vs)) evs
| ep_span_fail i e s evs : is_unit G i = false -> expr_of G i = Some (ESpan e) ->
    ep Par (IE e) s None evs -> ep Par (IE i) s None evs
| ep_range_rec i e s r evs : expr_of G i = Some (ERange e) -> ep Rec (IE e) s r evs ->
    ep Rec (IE i) s r evs
| ep_range_ok i e s s1 vs evs : is_unit G i = false -> expr_of G i = Some (ERange e) ->
    ep Par (IE e) s (Some (s1, vs)) evs ->
    ep Par (IE i) s (Some (s1, VRange (off s) (off s1) :: vs)) evs
| ep_range_fail i e s evs : is_unit G i = false -> expr_of G i = Some (ERange e) ->
    ep Par (IE e) s None evs -> ep Par (IE i) s None evs
| ep_seq_nil m s : ep m (ISeq []) s (Some (s, [])) []
| ep_seq_cons_ok m i l s s1 vs1 evs1 s2 vs2 evs2 : ep m (IE i) s (Some (s1, vs1)) evs1 ->
    ep m (ISeq l) s1 (Some (s2, vs2)) evs2 ->
    ep m (ISeq (i :: l)) s (Some (s2, vs1 ++ vs2)) (evs1 ++ evs2)
| ep_seq_cons_fail m i l s s1 vs1 evs1 evs2 : ep m (IE i) s (Some (s1, vs1)) evs1 ->
    ep m (ISeq l) s1 None evs2 -> ep m (ISeq (i :: l)) s None (evs1 ++ evs2)
| ep_seq_fail m i l s evs : ep m (IE i) s None evs -> ep m (ISeq (i :: l)) s None evs
| ep_alt_nil m s : ep m (IAlt []) s None []
| ep_alt_first m i l s r evs : ep m (IE i) s (Some r) evs -> ep m (IAlt (i :: l)) s (Some r) evs
| ep_alt_next m i l s evs1 r evs2 : ep m (IE i) s None evs1 -> ep m (IAlt l) s r evs2 ->
    ep m (IAlt (i :: l)) s r (evs1 ++ evs2)
| ep_star_stop m e s evs : ep m (IE e) s None evs -> ep m (IStar e) s (Some (s, [])) evs
| ep_star_more m e s s1 vs1 evs1 s2 vs2 evs2 : ep m (IE e) s (Some (s1, vs1)) evs1 ->
    ep m (IStar e) s1 (Some (s2, vs2)) evs2 ->
    ep m (IStar e) s (Some (s2, tup vs1 :: vs2)) (evs1 ++ evs2).

(** In IStar the list holds one value per iteration; the wrapper [VVec] is put by the star and plus rules. *)

End Values.
End Spec.
