(** UTF-8 as implemented by Rust's [str]/[char] (std; not part of /repo, trusted to be read
    correctly): [char::len_utf8], [char::encode_utf8], [core::str::next_code_point],
    [str::is_char_boundary]. *)
From Verif Require Import Base.
Set Implicit Arguments.
Local Open Scope N_scope.

(** char::encode_utf8 (std).  Shifts and masks are written with / and mod. *)
Definition utf8 (c : char) : list byte :=
  if c <? 128 then [c]
  else if c <? 2048 then [192 + c / 64; 128 + c mod 64]
  else if c <? 65536 then [224 + c / 4096; 128 + (c / 64) mod 64; 128 + c mod 64]
  else [240 + c / 262144; 128 + (c / 4096) mod 64; 128 + (c / 64) mod 64; 128 + c mod 64].

(** char::len_utf8 (std). *)
Definition len_utf8 (c : char) : nat :=
  if c <? 128 then 1%nat else if c <? 2048 then 2%nat else if c <? 65536 then 3%nat else 4%nat.

Definition enc (t : text) : list byte := flat_map utf8 t.

(** core::str::next_code_point (std): decodes the first character of a byte sequence that is
    assumed to be valid UTF-8.  A truncated sequence is [None] (undefined behaviour in Rust). *)
Definition next_code_point (b : list byte) : option char :=
  match b with
  | [] => None
  | x :: b1 =>
    if x <? 128 then Some x else
    match b1 with
    | [] => None
    | y :: b2 =>
      if x <? 224 then Some ((x mod 32) * 64 + y mod 64) else
      match b2 with
      | [] => None
      | z :: b3 =>
        let y_z := (y mod 64) * 64 + z mod 64 in
        if x <? 240 then Some ((x mod 32) * 4096 + y_z) else
        match b3 with
        | [] => None
        | w :: _ => Some (((x mod 32) mod 8) * 262144 + y_z * 64 + w mod 64)
        end
      end
    end
  end.

(** str::is_char_boundary (std): index 0 and len are boundaries; otherwise the byte at the index
    must not be a continuation byte (128..191). *)
Definition is_char_boundary (b : list byte) (i : nat) : bool :=
  if (i =? 0)%nat then true
  else if (i =? length b)%nat then true
  else match nth_error b i with
       | None => false
       | Some x => (x <? 128) || (192 <=? x)
       end.

(** &s[i..] (std): panics unless i is a character boundary. *)
Definition slice_from (b : list byte) (i : nat) : res (list byte) :=
  if is_char_boundary b i then Ret (skipn i b) else Panic.

(** &s[..i] (std). *)
Definition slice_to (b : list byte) (i : nat) : res (list byte) :=
  if is_char_boundary b i then Ret (firstn i b) else Panic.

Local Ltac Zify.zify_post_hook ::= Z.div_mod_to_equations.

Lemma is_scalar_lt c : is_scalar c = true -> c < 1114112.
Proof. unfold is_scalar. lia. Qed.

Lemma utf8_length c : length (utf8 c) = len_utf8 c.
Proof. unfold utf8, len_utf8. destruct (c <? 128), (c <? 2048), (c <? 65536); reflexivity. Qed.

Lemma len_utf8_pos c : (1 <= len_utf8 c <= 4)%nat.
Proof. unfold len_utf8. destruct (c <? 128), (c <? 2048), (c <? 65536); lia. Qed.

Lemma utf8_nonempty c : utf8 c <> [].
Proof. intro H. pose proof (utf8_length c) as L. rewrite H in L. simpl in L.
       pose proof (len_utf8_pos c). lia. Qed.

Lemma next_code_point_utf8 c rest :
  c < 1114112 -> next_code_point (utf8 c ++ rest) = Some c.
Proof.
  intros H. unfold utf8.
  destruct (c <? 128) eqn:H1; [simpl; rewrite H1; reflexivity|].
  destruct (c <? 2048) eqn:H2.
  { cbn [app next_code_point].
    replace (192 + c / 64 <? 128) with false by lia.
    replace (192 + c / 64 <? 224) with true by lia. f_equal. lia. }
  destruct (c <? 65536) eqn:H3.
  { cbn [app next_code_point].
    replace (224 + c / 4096 <? 128) with false by lia.
    replace (224 + c / 4096 <? 224) with false by lia.
    replace (224 + c / 4096 <? 240) with true by lia. f_equal. lia. }
  cbn [app next_code_point].
  replace (240 + c / 262144 <? 128) with false by lia.
  replace (240 + c / 262144 <? 224) with false by lia.
  replace (240 + c / 262144 <? 240) with false by lia. f_equal. lia.
Qed.

(** The first byte of an encoded character is never a continuation byte. *)
Lemma utf8_head c : c < 1114112 ->
  exists x tl, utf8 c = x :: tl /\ (x <? 128) || (192 <=? x) = true
               /\ Forall (fun y => 128 <= y < 192) tl.
Proof.
  intros H. unfold utf8.
  destruct (c <? 128) eqn:H1; [eexists _, []; split; [reflexivity|split; [lia|constructor]]|].
  destruct (c <? 2048) eqn:H2;
    [eexists _, _; split; [reflexivity|split; [lia|repeat constructor; lia]]|].
  destruct (c <? 65536) eqn:H3;
    eexists _, _; (split; [reflexivity|split; [lia|repeat constructor; lia]]).
Qed.

(** UTF-8 is a prefix code. *)
Lemma utf8_prefix_code c d r1 r2 : c < 1114112 -> d < 1114112 ->
  utf8 c ++ r1 = utf8 d ++ r2 -> c = d /\ r1 = r2.
Proof.
  intros Hc Hd E.
  assert (c = d).
  { assert (Some c = Some d) by
      (rewrite <- (next_code_point_utf8 r1 Hc), <- (next_code_point_utf8 r2 Hd), E; reflexivity).
    congruence. }
  subst. apply app_inv_head in E. auto.
Qed.

Lemma scalars_cons c t : scalars (c :: t) <-> is_scalar c = true /\ scalars t.
Proof. unfold scalars. rewrite Forall_cons_iff. reflexivity. Qed.

Lemma scalars_app a b : scalars (a ++ b) <-> scalars a /\ scalars b.
Proof. unfold scalars. rewrite Forall_app. reflexivity. Qed.

Lemma enc_app a b : enc (a ++ b) = enc a ++ enc b.
Proof. apply flat_map_app. Qed.

Lemma enc_cons c t : enc (c :: t) = utf8 c ++ enc t.
Proof. reflexivity. Qed.

Lemma enc_nil_iff t : enc t = [] <-> t = [].
Proof.
  split; intros H; [|subst; reflexivity].
  destruct t as [|c t]; [reflexivity|]. rewrite enc_cons in H.
  apply app_eq_nil in H. destruct H as [H _]. exfalso. apply (utf8_nonempty _ H).
Qed.

Lemma enc_inj a b : scalars a -> scalars b -> enc a = enc b -> a = b.
Proof.
  revert b; induction a as [|c a IH]; intros b Ha Hb E.
  - symmetry in E. apply (proj1 (enc_nil_iff _)) in E. now subst.
  - destruct b as [|d b].
    + apply (proj1 (enc_nil_iff _)) in E. discriminate.
    + apply scalars_cons in Ha, Hb. destruct Ha as [Hc Ha], Hb as [Hd Hb].
      rewrite !enc_cons in E. apply utf8_prefix_code in E;
        [|apply is_scalar_lt; assumption|apply is_scalar_lt; assumption].
      destruct E; subst. f_equal; auto.
Qed.

(** Byte-level prefix of valid UTF-8 by valid UTF-8 is character-level prefix. *)
Lemma enc_prefix p t rest : scalars p -> scalars t ->
  enc t = enc p ++ rest -> exists q, t = p ++ q /\ rest = enc q.
Proof.
  revert t rest; induction p as [|c p IH]; intros t rest Hp Ht E.
  - exists t. split; [reflexivity|]. symmetry. exact E.
  - destruct t as [|d t].
    + symmetry in E. apply app_eq_nil in E. destruct E as [E _].
      apply (proj1 (enc_nil_iff _)) in E. discriminate.
    + apply scalars_cons in Hp, Ht. destruct Hp as [Hc Hp], Ht as [Hd Ht].
      rewrite !enc_cons, <- app_assoc in E.
      apply utf8_prefix_code in E; try (apply is_scalar_lt; assumption).
      destruct E as [-> E]. destruct (IH _ _ Hp Ht E) as (q & -> & ->).
      exists q. auto.
Qed.

Lemma boundary_enc pre post : scalars post ->
  is_char_boundary (enc pre ++ enc post) (length (enc pre)) = true.
Proof.
  intros H. unfold is_char_boundary.
  destruct (_ =? 0)%nat; [reflexivity|].
  destruct (_ =? length (_ ++ _))%nat eqn:E; [reflexivity|].
  rewrite nth_error_app2, Nat.sub_diag by lia.
  destruct post as [|c post].
  - simpl in E. rewrite app_nil_r in E. rewrite Nat.eqb_refl in E. discriminate.
  - apply scalars_cons in H. destruct H as [Hc _].
    destruct (utf8_head (is_scalar_lt _ Hc)) as (x & tl & Eq & Hx & _).
    rewrite enc_cons, Eq. simpl. exact Hx.
Qed.

(** Conversely, a boundary of valid UTF-8 is the end of a character prefix. *)
Lemma boundary_split t i : scalars t ->
  is_char_boundary (enc t) i = true ->
  exists pre post, t = pre ++ post /\ i = length (enc pre).
Proof.
  revert i; induction t as [|c t IH]; intros i Ht H.
  - unfold is_char_boundary in H. simpl in H. exists [], []. split; [reflexivity|].
    destruct (i =? 0)%nat eqn:E; [apply Nat.eqb_eq in E; exact E|].
    destruct i; discriminate.
  - apply scalars_cons in Ht. destruct Ht as [Hc Ht].
    destruct (Nat.eq_dec i 0) as [->|Hi].
    { exists [], (c :: t). auto. }
    destruct (utf8_head (is_scalar_lt _ Hc)) as (x & tl & Eq & Hx & Htl).
    destruct (le_lt_dec (length (utf8 c)) i) as [Hle|Hlt].
    + destruct (IH (i - length (utf8 c))%nat Ht) as (pre & post & -> & E).
      { unfold is_char_boundary in H |- *. rewrite enc_cons, app_length in H.
        replace (i =? 0)%nat with false in H by (symmetry; apply Nat.eqb_neq; exact Hi).
        rewrite nth_error_app2 in H by lia.
        destruct (i - length (utf8 c) =? 0)%nat eqn:E0; [reflexivity|].
        destruct (i - length (utf8 c) =? length (enc t))%nat eqn:E1; [reflexivity|].
        replace (i =? length (utf8 c) + length (enc t))%nat with false in H by lia.
        exact H. }
      exists (c :: pre), post. split; [reflexivity|].
      rewrite enc_cons, app_length. lia.
    + exfalso. unfold is_char_boundary in H. rewrite enc_cons, app_length in H.
      replace (i =? 0)%nat with false in H by (symmetry; apply Nat.eqb_neq; exact Hi).
      replace (i =? length (utf8 c) + length (enc t))%nat with false in H by lia.
      rewrite nth_error_app1 in H by lia. rewrite Eq in H.
      destruct i as [|i]; [lia|]. simpl in H.
      destruct (nth_error tl i) as [y|] eqn:En; [|discriminate].
      apply nth_error_In in En. rewrite Forall_forall in Htl. apply Htl in En. lia.
Qed.

Lemma slice_from_enc pre post : scalars post ->
  slice_from (enc pre ++ enc post) (length (enc pre)) = Ret (enc post).
Proof.
  intros H. unfold slice_from. rewrite boundary_enc by exact H.
  rewrite skipn_app, skipn_all, Nat.sub_diag. reflexivity.
Qed.
