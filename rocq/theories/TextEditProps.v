(** Property theorems C23 to C26. *)
From Coq Require Import List NArith Arith String Permutation Lia.
From Verif Require Import Text TextEditModel TextEditSpec TextEditProofs.
Import ListNotations.

Definition ed (s e : nat) (i : text) : indel := {| i_start := s; i_end := e; i_insert := i |}.

(** C23: whatever chunks the diff returns, the computed edit turns the text they
    spell on the old side into the one they spell on the new side. *)
Theorem c23_diff_edit_applies : forall cs, exists es,
  diff cs = Some es /\ separated es /\ Forall (in_bounds (old_text cs)) es /\
  edit_apply es (old_text cs) = Some (new_text cs) /\ replaced es 0 (old_text cs) = new_text cs.
Proof. exact diff_correct. Qed.
Print Assumptions c23_diff_edit_applies.

Example c23_example :
  let cs := [Equal $"ab"; Insert [233%N]; Delete $"cd"; Delete [8364%N]; Insert $"X"; Insert $"Y"; Equal $"e"; Delete $"f"] in
  old_text cs = $"abcd" ++ [8364%N] ++ $"ef" /\ new_text cs = $"ab" ++ [233%N] ++ $"XYe" /\
  diff cs = Some [ed 2 7 ([233%N] ++ $"XY"); ed 8 9 []] /\
  edit_apply [ed 2 7 ([233%N] ++ $"XY"); ed 8 9 []] (old_text cs) = Some (new_text cs).
Proof. vm_compute. repeat split. Qed.

(** C24: for replacements pairwise apart, given in any order. *)
Theorem c24_builder_correct : forall t ds,
  ForallOrdPairs apart ds -> Forall (in_bounds t) ds ->
  exists es, build ds = Some es /\ separated es /\ Forall (in_bounds t) es /\
    replaced es 0 t = replaced ds 0 t /\ edit_apply es t = Some (replaced ds 0 t).
Proof. exact build_correct. Qed.
Print Assumptions c24_builder_correct.

(** The builder accepts exactly the replacements that are pairwise apart or equal. *)
Theorem c24_builder_accepts_iff : forall ds, Forall (fun d => i_start d <= i_end d) ds ->
  (build ds <> None <-> ForallOrdPairs (fun a b => apart a b \/ a = b) ds).
Proof. exact build_succeeds_iff. Qed.
Print Assumptions c24_builder_accepts_iff.

(** Applying ordered edits in bounds never fails and performs them simultaneously. *)
Theorem c24_apply_ordered_edits : forall t es, in_order es -> Forall (in_bounds t) es ->
  edit_apply es t = Some (replaced es 0 t).
Proof. exact apply_in_order. Qed.
Print Assumptions c24_apply_ordered_edits.

Example c24_example :
  let ds := [ed 8 9 $"Z"; ed 2 2 $"A"; ed 4 6 $"B"; ed 2 2 $"C"; ed 2 4 []] in
  ForallOrdPairs apart ds /\ Forall (in_bounds $"0123456789") ds /\
  build ds = Some [ed 2 6 $"ACB"; ed 8 9 $"Z"] /\
  replaced ds 0 $"0123456789" = $"01ACB67Z9".
Proof.
  split; [|split].
  - unfold apart. repeat (constructor; cbn; try lia).
  - repeat constructor; cbn; try lia;
    match goal with |- boundary ?t ?n => exists (firstn n t), (skipn n t); split; reflexivity end.
  - vm_compute. split; reflexivity.
Qed.

(** Two equal deletions are accepted and both carried out: the second one removes
    text after the range. *)
Theorem c24_equal_deletions_refuted : exists t d es,
  in_bounds t d /\ build [d; d] = Some es /\
  edit_apply es t = Some $"01" /\ replaced [d; d] 0 t = $"01567".
Proof.
  exists $"01234567", (ed 2 5 []), [ed 2 5 []; ed 2 5 []]. split.
  - split; [cbn; lia|split]; [exists $"01", $"234567"|exists $"01234", $"567"]; split; reflexivity.
  - vm_compute. repeat split.
Qed.
Print Assumptions c24_equal_deletions_refuted.

(** C25: when a union is accepted, and what it does.  [fresh l r]: the edit is not a
    non-empty replacement already present in [l]. *)
Theorem c25_union_accepted_iff : forall l r, in_order l -> in_order r ->
  Forall (fun d => i_start d <= i_end d) l -> Forall (fun d => i_start d <= i_end d) r ->
  (edit_union l r <> None <->
   forall a b, In a l -> In b r ->
     a = b \/ i_end a <= i_start b \/ (i_end b <= i_start a /\ i_start b < i_start a)).
Proof. exact union_iff. Qed.
Print Assumptions c25_union_accepted_iff.

Theorem c25_union_effect : forall l r u, in_order l -> in_order r ->
  Forall (fun d => i_start d <= i_end d) l -> Forall (fun d => i_start d <= i_end d) r ->
  edit_union l r = Some u ->
  in_order u /\ Permutation u (l ++ filter (fresh l) r) /\
  forall t, Forall (in_bounds t) l -> Forall (in_bounds t) r ->
    edit_apply u t = Some (replaced (l ++ filter (fresh l) r) 0 t).
Proof. exact union_correct. Qed.
Print Assumptions c25_union_effect.

Example c25_example :
  let l := [ed 1 3 $"a"; ed 5 5 $"b"; ed 7 9 []] in
  let r := [ed 0 1 []; ed 5 5 $"b"; ed 5 6 $"c"; ed 7 9 []] in
  in_order l /\ in_order r /\
  edit_union l r = Some [ed 0 1 []; ed 1 3 $"a"; ed 5 5 $"b"; ed 5 5 $"b"; ed 5 6 $"c"; ed 7 9 []] /\
  filter (fresh l) r = [ed 0 1 []; ed 5 5 $"b"; ed 5 6 $"c"] /\
  edit_apply [ed 0 1 []; ed 1 3 $"a"; ed 5 5 $"b"; ed 5 5 $"b"; ed 5 6 $"c"; ed 7 9 []] $"0123456789" = Some $"a34bbc69".
Proof. split; [|split]; [repeat (constructor; cbn; try lia)|repeat (constructor; cbn; try lia)|vm_compute; repeat split]. Qed.

(** Union is not symmetric: an insertion at the start of a replaced range is
    accepted from the left and refused from the right. *)
Theorem c25_union_symmetric_refuted : exists l r, apart (ed 5 8 []) (ed 5 5 $"x") /\
  l = [ed 5 8 []] /\ r = [ed 5 5 $"x"] /\ edit_union l r = None /\ edit_union r l = Some [ed 5 5 $"x"; ed 5 8 []].
Proof. exists [ed 5 8 []], [ed 5 5 $"x"]. unfold apart. cbn. repeat split. right. lia. Qed.
Print Assumptions c25_union_symmetric_refuted.

(** C26: an offset is lost exactly strictly inside a replaced range (and never a panic). *)
Theorem c26_lost_iff_inside : forall t es o, in_order es -> Forall (in_bounds t) es ->
  (apply_to_offset es o = Lost <-> exists e, In e es /\ i_start e < o < i_end e) /\
  apply_to_offset es o <> TransportPanic.
Proof. exact offset_lost_iff. Qed.
Print Assumptions c26_lost_iff_inside.

(** Otherwise the new offset splits the edited text where the old one split the old
    text: before it what became of the text before, after it what became of the text after. *)
Theorem c26_moved_with_text : forall t es o o' a b, in_order es -> Forall (in_bounds t) es ->
  split_at o t = Some (a, b) -> apply_to_offset es o = Moved o' ->
  split_at o' (replaced es 0 t) =
    Some (replaced (filter (fun e => i_start e <? o) es) 0 a, replaced (filter (fun e => o <=? i_start e) es) o b).
Proof. exact offset_moved. Qed.
Print Assumptions c26_moved_with_text.

(** In particular it points at the same character, unless an edit begins there. *)
Theorem c26_same_character : forall t es o o' a c b, in_order es -> Forall (in_bounds t) es ->
  split_at o t = Some (a, c :: b) -> apply_to_offset es o = Moved o' ->
  (forall e, In e es -> i_start e <> o) ->
  exists a' b', split_at o' (replaced es 0 t) = Some (a', c :: b').
Proof. exact offset_same_char. Qed.
Print Assumptions c26_same_character.

(** An offset that [invalidates_offset] does not report stands between the same two
    characters as before. *)
Theorem c26_untouched_offset : forall t es o a x y b, in_order es -> Forall (in_bounds t) es ->
  split_at o t = Some (a ++ [x], y :: b) -> invalidates_offset es o = false ->
  exists o' a' b', apply_to_offset es o = Moved o' /\
    split_at o' (replaced es 0 t) = Some (a' ++ [x], y :: b').
Proof. exact offset_untouched. Qed.
Print Assumptions c26_untouched_offset.

Example c26_untouched_example :
  let es := [ed 1 3 $"abcd"; ed 5 5 $"x"; ed 7 9 []] in
  map (invalidates_offset es) [0; 1; 2; 3; 4; 5; 6; 7; 8; 9]
  = [false; true; true; true; false; true; false; true; true; true] /\
  split_at 6 $"0123456789" = Some ($"01234" ++ $"5", $"6" ++ $"789").
Proof. vm_compute. split; reflexivity. Qed.

Example c26_example :
  let es := [ed 1 3 $"abcd"; ed 5 5 $"x"; ed 7 9 []] in
  replaced es 0 $"0123456789" = $"0abcd34x569" /\
  map (apply_to_offset es) [0; 1; 2; 3; 4; 5; 6; 7; 8; 9]
  = [Moved 0; Moved 1; Lost; Moved 5; Moved 6; Moved 7; Moved 9; Moved 10; Lost; Moved 10].
Proof. vm_compute. split; reflexivity. Qed.
