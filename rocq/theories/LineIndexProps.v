(** Property theorems C16 and C17. *)
From Coq Require Import List NArith Arith String.
From Verif Require Import Text LineIndexModel LineIndexSpec LineIndexProofs.
Import ListNotations.

(** C16: [a] is the text before the boundary at byte [offset]. *)
Theorem c16_position_round_trip : forall enc t offset a b,
  split_at offset t = Some (a, b) ->
  position_from_offset enc (line_index_new t) offset = Some (position_after enc a) /\
  offset_from_position enc (line_index_new t) (position_after enc a) = Some offset.
Proof. exact position_round_trip. Qed.
Print Assumptions c16_position_round_trip.

(** "é€😀" LF "a😀b": the boundary before "b". *)
Example c16_example :
  let t := [233%N; 8364%N; 128512%N; LF; 97%N; 128512%N; 98%N] in
  split_at 15 t = Some ([233%N; 8364%N; 128512%N; LF; 97%N; 128512%N], [98%N]) /\
  position_from_offset EUtf8 (line_index_new t) 15 = Some {| pos_line := 1; pos_char := 5 |} /\
  position_from_offset EUtf16 (line_index_new t) 15 = Some {| pos_line := 1; pos_char := 3 |} /\
  position_from_offset EUtf32 (line_index_new t) 15 = Some {| pos_line := 1; pos_char := 2 |} /\
  offset_from_position EUtf16 (line_index_new t) {| pos_line := 1; pos_char := 3 |} = Some 15 /\
  offset_from_position EUtf16 (line_index_new t) {| pos_line := 0; pos_char := 4 |} = Some 9.
Proof. vm_compute. repeat split. Qed.

(** The protocol says that a character past the end of a line means the end of the
    line.  The conversion does not clamp: it lands in the following line. *)
Theorem c16_column_past_line_end_refuted : exists t p,
  pos_line p = 0 /\ offset_from_position EUtf8 (line_index_new t) p = Some 4 /\
  split_at 4 t = Some ($"ab" ++ [LF; 99%N], $"d").
Proof. exists ($"ab" ++ [LF] ++ $"cd"), {| pos_line := 0; pos_char := 4 |}. vm_compute. repeat split. Qed.
Print Assumptions c16_column_past_line_end_refuted.

(** A position between the two halves of a surrogate pair becomes a byte offset that
    is no character boundary. *)
Theorem c16_inside_surrogate_pair_refuted : exists t p o,
  offset_from_position EUtf16 (line_index_new t) p = Some o /\ split_at o t = None.
Proof. exists [128512%N], {| pos_line := 0; pos_char := 1 |}, 3. vm_compute. split; reflexivity. Qed.
Print Assumptions c16_inside_surrogate_pair_refuted.

(** C17 *)
Theorem c17_position_strictly_monotone : forall enc t o1 o2 p1 p2 a1 b1 a2 b2,
  split_at o1 t = Some (a1, b1) -> split_at o2 t = Some (a2, b2) ->
  position_from_offset enc (line_index_new t) o1 = Some p1 ->
  position_from_offset enc (line_index_new t) o2 = Some p2 ->
  (o1 < o2 <-> pos_lt p1 p2).
Proof. exact position_monotone. Qed.
Print Assumptions c17_position_strictly_monotone.

Theorem c17_range_never_inverts : forall enc t s e a1 b1 a2 b2,
  split_at s t = Some (a1, b1) -> split_at e t = Some (a2, b2) -> s <= e ->
  exists r, range_to_proto enc (line_index_new t) s e = Some r /\
    text_range enc (line_index_new t) r = Val (s, e) /\
    (r_start r = r_end r <-> s = e).
Proof. exact range_never_inverts. Qed.
Print Assumptions c17_range_never_inverts.

Example c17_example :
  let t := [233%N; LF; 128512%N; 98%N] in
  range_to_proto EUtf16 (line_index_new t) 2 7 =
    Some {| r_start := {| pos_line := 0; pos_char := 1 |}; r_end := {| pos_line := 1; pos_char := 2 |} |}.
Proof. vm_compute. reflexivity. Qed.
