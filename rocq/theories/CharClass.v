(** Character classes: src/liboak/front/parser.rs:367-441. *)
From Verif Require Import Base Grammar.
Set Implicit Arguments. Unset Strict Implicit.

Definition dash : N := 45%N.

(** Result: an accepted value, a syntax error, or no answer within the fuel. *)
Inductive fres (A : Type) := FOk (a : A) | FErr | FLoop.
Arguments FOk {A} a. Arguments FErr {A}. Arguments FLoop {A}.

(** parser.rs:404-441: one step; returns the intervals read (at most two) and the remaining characters. *)
Definition parse_char_range (s : text) : fres (list (N * N) * text) :=
  match s with
  | [] => FOk ([], [])                                                 (* (None, _) *)
  | lo :: s1 =>
    match s1 with
    | [] => FOk ([(lo, lo)], [])                                       (* (Some(lo), None) *)
    | next :: s2 =>
      if (lo =? dash)%N then FErr                                      (* (Some('-'), Some(_)) *)
      else if (next =? dash)%N then                                    (* an interval, or a final '-' *)
        match s2 with
        | [] => FOk ([(lo, lo); (dash, dash)], [])
        | hi :: s3 => if (hi =? dash)%N then FErr else FOk ([(lo, hi)], s3)
        end
      else FOk ([(lo, lo)], s1)
    end
  end.

(** parser.rs:394-400, the loop bounded by [fuel]. *)
Fixpoint ranges_loop (fuel : nat) (s : text) (acc : list (N * N)) : fres (list (N * N)) :=
  match fuel with
  | 0 => FLoop
  | S k =>
    match parse_char_range s with
    | FOk ([], _) => FOk acc
    | FOk (set, s') => ranges_loop k s' (acc ++ set)
    | FErr => FErr
    | FLoop => FLoop
    end
  end.

(** parser.rs:384-402. *)
Definition parse_set_of_char_range (fuel : nat) (s : text) : fres (list (N * N)) :=
  match s with
  | c :: s' => if (c =? dash)%N then ranges_loop fuel s' [(dash, dash)] else ranges_loop fuel s []
  | [] => ranges_loop fuel s []
  end.

(** parser.rs:367-382, on the value of the string literal. *)
Definition parse_char_class (fuel : nat) (s : text) : fres (list (N * N)) :=
  match s with [] => FErr | _ => parse_set_of_char_range fuel s end.

(** ---------------- specification: the documented syntax ---------------- *)
Inductive citem := Single (c : N) | Interval (lo hi : N).
Definition no_dash (i : citem) : Prop :=
  match i with Single c => c <> dash | Interval lo hi => lo <> dash /\ hi <> dash end.
Definition item_text (i : citem) : text := match i with Single c => [c] | Interval lo hi => [lo; dash; hi] end.
Definition item_interval (i : citem) : N * N := match i with Single c => (c, c) | Interval lo hi => (lo, hi) end.
Definition opt_dash (b : bool) : text := if b then [dash] else [].
Definition opt_dash_iv (b : bool) : list (N * N) := if b then [(dash, dash)] else [].
(** A class: an optional leading dash, items without dashes, an optional trailing dash. *)
Definition class_text (lead : bool) (items : list citem) (trail : bool) : text :=
  opt_dash lead ++ flat_map item_text items ++ opt_dash trail.
Definition class_intervals (lead : bool) (items : list citem) (trail : bool) : list (N * N) :=
  opt_dash_iv lead ++ map item_interval items ++ opt_dash_iv trail.

(** ---------------- correctness ---------------- *)
Definition body_text (items : list citem) (trail : bool) := flat_map item_text items ++ opt_dash trail.
Definition body_ivs (items : list citem) (trail : bool) := map item_interval items ++ opt_dash_iv trail.

Lemma body_nil items trail : body_text items trail = [] -> items = [] /\ trail = false.
Proof.
  unfold body_text. intros E. apply app_eq_nil in E. destruct E as [A B].
  split; [destruct items as [|[]]; [reflexivity|discriminate|discriminate]|destruct trail; [discriminate|reflexivity]].
Qed.
Lemma body_dash items trail r : Forall no_dash items -> body_text items trail = dash :: r -> items = [] /\ trail = true /\ r = [].
Proof.
  unfold body_text. intros F E. destruct F as [|[d|lo hi] items Hi F]; cbn in E.
  - destruct trail; [injection E as <-; auto|discriminate].
  - injection E as E1 _. cbn in Hi. congruence.
  - injection E as E1 _. cbn in Hi. tauto.
Qed.
Lemma body_cons i items trail : body_text (i :: items) trail = item_text i ++ body_text items trail.
Proof. unfold body_text. cbn [flat_map]. rewrite app_assoc. reflexivity. Qed.
Lemma ivs_cons i items trail : body_ivs (i :: items) trail = item_interval i :: body_ivs items trail.
Proof. reflexivity. Qed.

Lemma loop_complete items trail : Forall no_dash items -> forall fuel acc,
  length (body_text items trail) < fuel -> ranges_loop fuel (body_text items trail) acc = FOk (acc ++ body_ivs items trail).
Proof.
  induction 1 as [|i items Hi Hf IH]; intros fuel acc L.
  - destruct fuel as [|k]; [lia|]. destruct trail; cbn in *.
    + destruct k as [|k]; [lia|]. reflexivity.
    + rewrite app_nil_r. reflexivity.
  - rewrite body_cons in *. rewrite ivs_cons. rewrite app_length in L. destruct fuel as [|k]; [lia|]. destruct i as [c|lo hi]; cbn [item_text item_interval app length] in *.
    + cbn in Hi. assert (Q : (c =? dash)%N = false) by (apply N.eqb_neq, Hi).
      cbn [ranges_loop parse_char_range]. destruct (body_text items trail) as [|nx r2] eqn:Er.
      * apply body_nil in Er. destruct Er as [-> ->]. destruct k as [|k]; [cbn in L; lia|]. reflexivity.
      * rewrite Q. destruct (nx =? dash)%N eqn:En.
        -- apply N.eqb_eq in En. subst nx. apply body_dash in Er; [|exact Hf]. destruct Er as (-> & -> & ->).
           destruct k as [|k]; [cbn in L; lia|]. reflexivity.
        -- rewrite IH by lia. rewrite <- app_assoc. reflexivity.
    + destruct Hi as [A B]. apply N.eqb_neq in A, B. cbn [ranges_loop parse_char_range]. rewrite A, N.eqb_refl, B.
      rewrite IH by lia. rewrite <- app_assoc. reflexivity.
Qed.

Lemma loop_sound fuel : forall s acc ivs, ranges_loop fuel s acc = FOk ivs ->
  exists items trail, Forall no_dash items /\ s = body_text items trail /\ ivs = acc ++ body_ivs items trail.
Proof.
  induction fuel as [|k IH]; intros s acc ivs H; [discriminate|]. cbn [ranges_loop] in H.
  destruct s as [|lo s1]; cbn [parse_char_range] in H.
  - injection H as <-. exists [], false. cbn. rewrite app_nil_r. auto.
  - destruct s1 as [|nx s2].
    + apply IH in H. destruct H as (items & trail & F & E & ->).
      destruct (N.eq_dec lo dash) as [->|Hl].
      * exists items, true. assert (items = [] /\ trail = false) as [-> ->].
        { unfold body_text in E. symmetry in E. apply app_eq_nil in E. destruct E as [A B]. split; [destruct items as [|[]]; [reflexivity|discriminate|discriminate]|destruct trail; [discriminate|reflexivity]]. }
        cbn. rewrite !app_nil_r. auto.
      * exists (Single lo :: items), trail. split; [constructor; assumption|]. unfold body_text, body_ivs in *. cbn [flat_map map item_text item_interval app] in *.
        rewrite <- E, <- app_assoc. auto.
    + destruct (lo =? dash)%N eqn:El; [discriminate|]. apply N.eqb_neq in El. destruct (nx =? dash)%N eqn:En.
      * apply N.eqb_eq in En. subst nx. destruct s2 as [|hi s3].
        -- apply IH in H. destruct H as (items & trail & F & E & ->). assert (items = [] /\ trail = false) as [-> ->].
           { unfold body_text in E. symmetry in E. apply app_eq_nil in E. destruct E as [A B]. split; [destruct items as [|[]]; [reflexivity|discriminate|discriminate]|destruct trail; [discriminate|reflexivity]]. }
           exists [Single lo], true. cbn. rewrite !app_nil_r. split; [repeat constructor; exact El|auto].
        -- destruct (hi =? dash)%N eqn:Eh; [discriminate|]. apply N.eqb_neq in Eh. apply IH in H. destruct H as (items & trail & F & -> & ->).
           exists (Interval lo hi :: items), trail. split; [constructor; [split; assumption|exact F]|]. unfold body_text, body_ivs. cbn. rewrite <- app_assoc. auto.
      * apply IH in H. destruct H as (items & trail & F & -> & ->).
        exists (Single lo :: items), trail. split; [constructor; assumption|]. unfold body_text, body_ivs. cbn. rewrite <- app_assoc. auto.
Qed.

Lemma range_shorter s set s' : parse_char_range s = FOk (set, s') -> set <> [] -> length s' < length s.
Proof.
  destruct s as [|lo [|nx s2]]; cbn; intros H NE.
  - injection H as <- <-. congruence.
  - injection H as <- <-. cbn. lia.
  - destruct (lo =? dash)%N; [discriminate|]. destruct (nx =? dash)%N; [destruct s2 as [|hi s3]; [|destruct (hi =? dash)%N; [discriminate|]]|];
      injection H as <- <-; cbn; lia.
Qed.
Lemma loop_total fuel : forall s acc, length s < fuel -> ranges_loop fuel s acc <> FLoop.
Proof.
  induction fuel as [|k IH]; intros s acc L; [lia|]. cbn [ranges_loop]. destruct (parse_char_range s) as [[[|i set] s']| |] eqn:E; try discriminate.
  - apply IH. apply range_shorter in E; [lia|discriminate].
  - destruct s as [|lo [|nx s2]]; cbn in E; try discriminate. destruct (lo =? dash)%N; [discriminate|].
    destruct (nx =? dash)%N; [|discriminate]. destruct s2 as [|hi s3]; [discriminate|]. destruct (hi =? dash)%N; discriminate.
Qed.

Theorem class_total s : parse_char_class (S (length s)) s <> FLoop.
Proof.
  destruct s as [|c s]; [discriminate|]. cbn [parse_char_class parse_set_of_char_range].
  destruct (c =? dash)%N; apply loop_total; cbn; lia.
Qed.

Theorem class_sound fuel s ivs : parse_char_class fuel s = FOk ivs ->
  exists lead items trail, Forall no_dash items /\ s = class_text lead items trail /\ ivs = class_intervals lead items trail.
Proof.
  destruct s as [|c s]; [discriminate|]. cbn [parse_char_class parse_set_of_char_range].
  destruct (c =? dash)%N eqn:E; intros H; apply loop_sound in H; destruct H as (items & trail & F & Es & ->).
  - apply N.eqb_eq in E. subst c. exists true, items, trail. split; [exact F|]. split; [|reflexivity]. unfold class_text. cbn. f_equal. exact Es.
  - exists false, items, trail. split; [exact F|]. split; [exact Es|reflexivity].
Qed.

Theorem class_complete lead items trail : Forall no_dash items -> class_text lead items trail <> [] ->
  exists ivs, parse_char_class (S (length (class_text lead items trail))) (class_text lead items trail) = FOk ivs
    /\ forall c, in_class c ivs <-> in_class c (class_intervals lead items trail).
Proof.
  intros F NE. unfold class_text in *. destruct lead; cbn [opt_dash app] in *.
  - exists (class_intervals true items trail). split; [|intros c; reflexivity]. cbn [parse_char_class parse_set_of_char_range]. rewrite N.eqb_refl.
    change (flat_map item_text items ++ opt_dash trail) with (body_text items trail). rewrite loop_complete; [reflexivity|exact F|cbn; lia].
  - change (flat_map item_text items ++ opt_dash trail) with (body_text items trail) in *.
    destruct items as [|i items].
    + destruct trail; [|contradiction]. exists [(dash, dash)]. split; [reflexivity|intros c; reflexivity].
    + exists (class_intervals false (i :: items) trail). split; [|intros c; reflexivity].
      destruct (body_text (i :: items) trail) as [|c s] eqn:E; [contradiction|]. cbn [parse_char_class parse_set_of_char_range].
      replace (c =? dash)%N with false.
      * rewrite <- E, loop_complete; [reflexivity|exact F|lia].
      * symmetry. apply N.eqb_neq. unfold body_text in E. inversion F; subst. destruct i as [d|lo hi]; cbn in E; injection E as <- _; cbn in *; tauto.
Qed.

Lemma class_nonempty fuel s ivs : parse_char_class fuel s = FOk ivs -> ivs <> [].
Proof.
  intros H. destruct (class_sound H) as (lead & items & trail & F & -> & ->). unfold class_intervals.
  destruct lead; [discriminate|]. destruct items as [|i items]; [|discriminate]. destruct trail; [discriminate|]. discriminate H.
Qed.
