(** Readers of the Rust types and items that occur in the grammars of the repository, for the concrete cases:
    stand-ins for [syn::Type] and [syn::Item], which the theorems take as parameters. *)
From Coq Require Import Ascii.
From Verif Require Import Base CharClass Analysis Front PropertiesFront.
Set Implicit Arguments. Unset Strict Implicit.
Open Scope string_scope. Open Scope nat_scope. Open Scope list_scope.

(** The text of tokens, as [quote!] writes it: separated by spaces. *)
Fixpoint tok_text (t : tok) : string :=
  match t with
  | TStr s => """..."""
  | TId s | TKw s | TOther s => s
  | TPunct c true => String c ""
  | TPunct c false => String c ""
  | TGroup d l =>
    let inner := (fix go (l : list tok) : string := match l with [] => "" | t :: l' => tok_text t ++ " " ++ go l' end) l in
    match d with Paren => "(" ++ inner ++ ")" | Bracket => "[" ++ inner ++ "]" | Brace => "{" ++ inner ++ "}" end
  end%string.
Definition glued (t : tok) : bool := match t with TPunct _ j => j | _ => false end.
Fixpoint toks_text (l : list tok) : string :=
  match l with [] => "" | [t] => tok_text t | t :: l' => tok_text t ++ (if glued t then "" else " ") ++ toks_text l' end%string.

(** Tokens up to the first one satisfying [stop], included. *)
Fixpoint upto (stop : tok -> bool) (ts : list tok) : option (list tok * list tok) :=
  match ts with
  | [] => None
  | t :: ts' => if stop t then Some ([t], ts') else match upto stop ts' with Some (u, r) => Some (t :: u, r) | None => None end
  end.
Lemma upto_reads stop ts u r : upto stop ts = Some (u, r) -> u <> [] /\ ts = u ++ r.
Proof.
  revert u r. induction ts as [|t ts IH]; intros u r H; cbn [upto] in H; [discriminate|]. destruct (stop t).
  - injection H as <- <-. split; [discriminate|reflexivity].
  - destruct (upto stop ts) as [[v q]|]; [|discriminate]. injection H as <- <-. destruct (IH v q eq_refl) as [_ ->]. split; [discriminate|reflexivity].
Qed.
Definition is_p (c : ascii) (t : tok) : bool := match t with TPunct d _ => Ascii.eqb c d | _ => false end.
Definition is_brace (t : tok) : bool := match t with TGroup Brace _ => true | _ => false end.

(** Attributes and visibility. *)
Fixpoint skip_vis (ts : list tok) : list tok :=
  match ts with
  | TPunct "#" _ :: TGroup Bracket _ :: r => skip_vis r
  | TKw k :: r => if String.eqb k "pub" then r else ts
  | _ => ts
  end.
(** [fn f ... { .. }], [enum T { .. }], [struct T { .. }], [type T = ..;], [use ..;] *)
Definition syn_item (ts : list tok) : option (rust_item * list tok) :=
  match skip_vis ts with
  | TKw k :: r =>
    let kind := if existsb (String.eqb k) ["fn"; "enum"; "struct"] then Some is_brace
                else if existsb (String.eqb k) ["type"; "use"] then Some (is_p ";") else None in
    match kind with
    | None => None
    | Some stop =>
      match upto stop ts with
      | None => None
      | Some (u, q) =>
        let src := toks_text u in
        let it := match r with
                  | TId n :: _ => if String.eqb k "fn" then RFn n src else if String.eqb k "type" then RAlias n src else ROther src
                  | _ => ROther src
                  end in Some (it, q)
      end
    end
  | _ => None
  end.
Lemma syn_item_reads : reads syn_item.
Proof.
  intros ts a r H. unfold syn_item in H. destruct (skip_vis ts) as [|[] q]; try discriminate. cbv zeta in H.
  destruct (if existsb (String.eqb s) ["fn"; "enum"; "struct"] then Some is_brace else if existsb (String.eqb s) ["type"; "use"] then Some (is_p ";") else None) as [stop|]; [|discriminate].
  destruct (upto stop ts) as [[u q']|] eqn:U; [|discriminate]. injection H as _ <-. destruct (upto_reads U) as [A B]. exists u. auto.
Qed.

(** [a::b<c>]: a path, and its generic arguments up to the closing bracket ([n]: the open ones). *)
Fixpoint angles (n : nat) (ts : list tok) : option (list tok * list tok) :=
  match ts with
  | [] => None
  | t :: ts' =>
    let m := if is_p "<" t then S n else if is_p ">" t then n - 1 else n in
    if m =? 0 then Some ([t], ts') else match angles m ts' with Some (u, r) => Some (t :: u, r) | None => None end
  end.
Lemma angles_reads n ts u r : angles n ts = Some (u, r) -> ts = u ++ r.
Proof.
  revert n u r. induction ts as [|t ts IH]; intros n u r H; cbn [angles] in H; [discriminate|]. cbv zeta in H. destruct (_ =? 0).
  - injection H as <- <-. reflexivity.
  - destruct (angles _ ts) as [[v q]|] eqn:A; [|discriminate]. injection H as <- <-. rewrite (IH _ _ _ A). reflexivity.
Qed.
Fixpoint type_path (ts : list tok) : list tok * list tok :=
  match ts with
  | TId s :: r =>
    match r with
    | TPunct c1 true :: TPunct c2 j :: r' => if Ascii.eqb c1 ":" && Ascii.eqb c2 ":" then let (u, q) := type_path r' in (TId s :: TPunct c1 true :: TPunct c2 j :: u, q) else ([TId s], r)
    | _ => ([TId s], r)
    end
  | _ => ([], ts)
  end.
Lemma type_path_reads : forall n ts, length ts <= n -> ts = fst (type_path ts) ++ snd (type_path ts).
Proof.
  induction n as [|n IH]; intros ts L; [destruct ts; [reflexivity|cbn in L; lia]|]. destruct ts as [|t r]; [reflexivity|]. destruct t; try reflexivity. cbn [type_path].
  destruct r as [|[| | |c1 j1| |] r]; try reflexivity. destruct j1; [|reflexivity]. destruct r as [|[| | |c2 j2| |] r]; try reflexivity.
  destruct (Ascii.eqb c1 ":" && Ascii.eqb c2 ":"); [|reflexivity]. assert (Q : r = fst (type_path r) ++ snd (type_path r)) by (apply IH; cbn in L; lia).
  destruct (type_path r) as [u q]. cbn [fst snd app] in *. rewrite Q at 1. reflexivity.
Qed.
Fixpoint plain_text (l : list tok) : string := match l with [] => "" | t :: l' => tok_text t ++ plain_text l' end%string.
Definition syn_type (ts : list tok) : option (string * list tok) :=
  match type_path ts with
  | ([], _) => None
  | (u, q) =>
    match q with
    | t :: _ => if is_p "<" t then match angles 0 q with Some (v, r) => Some (plain_text (u ++ v), r) | None => None end else Some (plain_text u, q)
    | [] => Some (plain_text u, q)
    end
  end.
Lemma syn_type_reads : reads syn_type.
Proof.
  intros ts a r H. unfold syn_type in H. pose proof (type_path_reads (le_n (length ts))) as P. destruct (type_path ts) as [[|t0 u] q]; [discriminate|]. cbn [fst snd] in P.
  destruct q as [|t q']; [injection H as _ <-; exists (t0 :: u); split; [discriminate|exact P]|]. destruct (is_p "<" t).
  - destruct (angles 0 (t :: q')) as [[v r']|] eqn:A; [|discriminate]. injection H as _ <-. rewrite (angles_reads A) in P. exists ((t0 :: u) ++ v). split; [discriminate|]. rewrite <- app_assoc. exact P.
  - injection H as _ <-. exists (t0 :: u). split; [discriminate|exact P].
Qed.

(** ---------------- reading the text of an item ---------------- *)
Fixpoint after (p : string) (s : string) : option string :=
  if String.prefix p s then Some (substring (String.length p) (String.length s) s) else match s with EmptyString => None | String _ s' => after p s' end.
Fixpoint before (p : string) (s : string) : string :=
  if String.prefix p s then EmptyString else match s with EmptyString => EmptyString | String c s' => String c (before p s') end.
(** What stands between [->] and the body, if anything. *)
Definition syn_return (src : string) : option string := after "-> " (before " {" src).
(** The generic parameters of an alias. *)
Definition syn_generics (src : string) : string := match after "<" (before "=" src) with Some s => "<" ++ before ">" s ++ ">" | None => "" end.
