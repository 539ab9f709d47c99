(** Property theorems about the runtime crate (C01-C06, C39). Nothing else lives here. *)
From Verif Require Import Base Utf8 Stream ParseState RuntimeFacts.

(** C01: n calls of next() on the stream of [t] return its first n characters in order, then None;
    no panic; the offset is the UTF-8 length of what was returned. *)
Theorem C01_next_reads_text : forall (t : text) (n : nat), scalars t ->
  exists s, next_n n (str_stream t) = Ret (map Some (firstn n t) ++ repeat None (n - length t), s)
    /\ bytes_offset s = length (enc (firstn n t)).
Proof. exact next_reads_text. Qed.
Print Assumptions C01_next_reads_text.

(** C01, from any stream obtained through the API (mixing next and consume_prefix). *)
Theorem C01_next_any_position : forall (t : text) (s : StrStream), scalars t -> reachable t s ->
  exists pre post s', t = pre ++ post /\ bytes_offset s = length (enc pre)
    /\ next s = Ret (hd_error post, s') /\ bytes_offset s' = length (enc (pre ++ firstn 1 post))
    /\ raw_data s' = raw_data s.
Proof. exact next_at_any. Qed.
Print Assumptions C01_next_any_position.

Example C01_case : exists s, next_n 5 (str_stream [97; 233; 8364; 128512]%N)
  = Ret ([Some 97; Some 233; Some 8364; Some 128512; None]%N, s) /\ bytes_offset s = 10.
Proof. eexists. vm_compute. split; reflexivity. Qed.

(** C02. *)
Theorem C02_consume_prefix : forall (t : text) (s : StrStream) (p : text),
  scalars t -> scalars p -> reachable t s ->
  exists pre post, t = pre ++ post /\ bytes_offset s = length (enc pre) /\
    ((starts_with post p /\ exists s', consume_prefix s (enc p) = (true, s')
        /\ bytes_offset s' = length (enc (pre ++ p)) /\ raw_data s' = raw_data s)
     \/ (~ starts_with post p /\ consume_prefix s (enc p) = (false, s))).
Proof. exact consume_prefix_any. Qed.
Print Assumptions C02_consume_prefix.

Example C02_case : reachable [97; 233; 98]%N (mkStr (enc [97; 233; 98]%N) 1)
  /\ consume_prefix (mkStr (enc [97; 233; 98]%N) 1) (enc [233]%N) = (true, mkStr (enc [97; 233; 98]%N) 3)
  /\ consume_prefix (mkStr (enc [97; 233; 98]%N) 1) (enc [232]%N) = (false, mkStr (enc [97; 233; 98]%N) 1).
Proof.
  split; [|split; reflexivity]. eapply (@reach_next _ (str_stream [97; 233; 98]%N)); [constructor|reflexivity].
Qed.

(** C03. *)
Theorem C03_order_and_has_next : forall (t : text) (s1 s2 : StrStream) (pre1 post1 pre2 post2 : text),
  scalars t -> reachable t s1 -> reachable t s2 ->
  t = pre1 ++ post1 -> bytes_offset s1 = length (enc pre1) ->
  t = pre2 ++ post2 -> bytes_offset s2 = length (enc pre2) ->
  stream_cmp s1 s2 = Nat.compare (length pre1) (length pre2)
  /\ stream_eqb s1 s2 = (length pre1 =? length pre2)
  /\ (has_next s1 = true <-> exists c s', next s1 = Ret (Some c, s'))
  /\ (has_next s1 = true <-> post1 <> []).
Proof. exact order_any. Qed.
Print Assumptions C03_order_and_has_next.

(** C04: holds when no carriage return ends a line; false with CRLF line ends. *)
Theorem C04_location_partial : forall (t : text) (s : StrStream) (pre post : text),
  scalars t -> reachable t s -> no_eol_cr t ->
  t = pre ++ post -> bytes_offset s = length (enc pre) ->
  location_spec pre (fst (line_column s)) (snd (line_column s)).
Proof. exact location_any. Qed.
Print Assumptions C04_location_partial.

Theorem C04_location_refuted :
  exists (t : text) (s : StrStream) (pre post : text), scalars t /\ reachable t s
    /\ t = pre ++ post /\ bytes_offset s = length (enc pre)
    /\ ~ location_spec pre (fst (line_column s)) (snd (line_column s)).
Proof. exact location_crlf_refuted. Qed.
Print Assumptions C04_location_refuted.

Example C04_case : line_column (mkStr (enc [97; 10; 233; 98]%N) 4) = (2, 3)
  /\ reachable [97; 10; 233; 98]%N (mkStr (enc [97; 10; 233; 98]%N) 4).
Proof.
  split; [reflexivity|].
  apply (@reach_prefix _ (str_stream [97; 10; 233; 98]%N) [97; 10; 233]%N true); [constructor|repeat constructor|reflexivity].
Qed.

(** C05: exact characterisation; false in general. *)
Theorem C05_debug_exact : forall (t : text) (s : StrStream) (pre post : text) (items : list (list N)),
  scalars t -> t = pre ++ post -> reachable t s -> bytes_offset s = length (enc pre) ->
  (cut10_ok post -> exists a b, post = a ++ b /\ length (enc a) = Nat.min (length (enc post)) 10
     /\ debug_expectation (mkExp items s)
        = Ret (line_column s, match post with [] => None | _ => Some (enc a) end, or_list items))
  /\ (~ cut10_ok post -> debug_expectation (mkExp items s) = Panic).
Proof. exact debug_spec. Qed.
Print Assumptions C05_debug_exact.

Theorem C05_debug_partial : forall (t : text) (s : StrStream) (pre post : text) (items : list (list N)),
  scalars t -> t = pre ++ post -> reachable t s -> bytes_offset s = length (enc pre) ->
  ascii (firstn 10 post) ->
  exists loc sn it, debug_expectation (mkExp items s) = Ret (loc, sn, it).
Proof. exact debug_ascii. Qed.
Print Assumptions C05_debug_partial.

Theorem C05_debug_refuted : exists (t : text) (items : list (list N)), scalars t /\
  debug_expectation (mkExp items (str_stream t)) = Panic.
Proof. exact debug_refuted. Qed.
Print Assumptions C05_debug_refuted.

(** C06: over every history of ParseState operations that does not panic. *)
Theorem C06_farthest_error : forall (V : Type) (t : text) (s : StrStream) (ops : list (op V)) st errs,
  reachable t s -> run (ps_new s) ops = Ret (st, errs) ->
  bytes_offset (farthest_read st) = farthest_of (bytes_offset s) (offs errs)
  /\ expected st = messages_at (bytes_offset (farthest_read st)) (offs errs).
Proof. exact errors_farthest. Qed.
Print Assumptions C06_farthest_error.

Theorem C06_farthest_is_max : forall (start : nat) (errs : list (nat * list N)),
  (forall e, In e errs -> fst e <= farthest_of start errs) /\ start <= farthest_of start errs
  /\ (farthest_of start errs = start \/ exists e, In e errs /\ fst e = farthest_of start errs).
Proof. exact farthest_of_max. Qed.
Print Assumptions C06_farthest_is_max.

Example C06_case :
  let t := [97; 98; 99]%N in
  exists st, run (ps_new (V := unit) (str_stream t))
    [OMark; OMove (mkStr t 2); OError [120]%N; ORestore (mkStr t 0); OMove (mkStr t 1); OError [121]%N;
     ORestore (mkStr t 0); OMove (mkStr t 2); OError [122]%N]
    = Ret (st, [(mkStr t 2, [120]%N); (mkStr t 1, [121]%N); (mkStr t 2, [122]%N)])
  /\ expected st = [[120]%N; [122]%N] /\ bytes_offset (farthest_read st) = 2.
Proof. eexists. vm_compute. repeat split. Qed.

(** C39. *)
Theorem C39_file_map_span : forall (start : N) (t : text) (s1 s2 : StrStream) (pre1 post1 pre2 post2 : text),
  scalars t -> reachable t s1 -> reachable t s2 ->
  t = pre1 ++ post1 -> bytes_offset s1 = length (enc pre1) ->
  t = pre2 ++ post2 -> bytes_offset s2 = length (enc pre2) ->
  (start + N.of_nat (length (enc t)) < 4294967296)%N ->
  fm_span (mkFM start s1) (mkFM start s2)
  = ((start + N.of_nat (length (enc pre1)))%N, (start + N.of_nat (length (enc pre2)))%N).
Proof. exact fm_span_spec. Qed.
Print Assumptions C39_file_map_span.

Theorem C39_line_starts_partial : forall (t : text) (start : nat), scalars t -> no_eol_cr t ->
  (forall x, In x (register_lines start (enc t)) <-> exists p, x = start + p /\ is_line_start (enc t) p)
  /\ (forall i j x y, i < j -> nth_error (register_lines start (enc t)) i = Some x ->
        nth_error (register_lines start (enc t)) j = Some y -> x < y).
Proof. exact register_lines_props. Qed.
Print Assumptions C39_line_starts_partial.

Theorem C39_line_starts_refuted : exists t : text, scalars t /\
  ~ (forall x, In x (register_lines 0 (enc t)) <-> exists p, x = 0 + p /\ is_line_start (enc t) p).
Proof. exact register_lines_crlf_refuted. Qed.
Print Assumptions C39_line_starts_refuted.

Example C39_case : register_lines 7 (enc [97; 10; 10; 233; 10]%N) = [7; 9; 10]
  /\ fm_span (mkFM 100 (mkStr (enc [97; 98]%N) 0)) (mkFM 100 (mkStr (enc [97; 98]%N) 2)) = (100%N, 102%N).
Proof. vm_compute. split; reflexivity. Qed.
