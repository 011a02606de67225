(** Property theorems C18 to C21. *)
From Coq Require Import List NArith ZArith Arith String Lia.
From Verif Require Import Text LineEndingModel LineIndexModel LineIndexSpec DocsModel DocsSpec DocsProofs.
Import ListNotations.

Definition at_ (l c : nat) : position := {| pos_line := l; pos_char := c |}.
Definition edit (s e : position) (x : text) : change :=
  {| c_range := Some {| r_start := s; r_end := e |}; c_text := x |}.
Definition whole (x : text) : change := {| c_range := None; c_text := x |}.

(** C18: a batch of range changes behaves like applying them one at a time with a
    fresh line table, including whether it panics. *)
Theorem c18_batch_equals_one_by_one : forall enc t cs,
  Forall ordered cs -> Forall (fun c => c_range c <> None) cs ->
  result (apply_text_changes enc t cs (line_index_new t)) = one_by_one enc t cs.
Proof. exact batch_incremental. Qed.
Print Assumptions c18_batch_equals_one_by_one.

(** With full changes among them, whenever one at a time succeeds. *)
Theorem c18_batch_with_full_changes : forall enc t cs t', Forall ordered cs ->
  one_by_one enc t cs = Some t' ->
  result (apply_text_changes enc t cs (line_index_new t)) = Some t'.
Proof. exact batch_correct. Qed.
Print Assumptions c18_batch_with_full_changes.

(** Bottom up (stale table reused), then downwards (table rebuilt), across lines, with a wide character. *)
Example c18_example :
  let t := $"ab" ++ [LF; 233%N] ++ $"cd" ++ [LF] ++ $"ef" in
  let cs := [edit (at_ 2 1) (at_ 2 2) ($"XYZ" ++ [CR; LF]); edit (at_ 1 1) (at_ 1 2) $"Q";
             edit (at_ 0 1) (at_ 1 0) $"-"; edit (at_ 1 2) (at_ 2 0) $"+"] in
  Forall ordered cs /\ Forall (fun c => c_range c <> None) cs /\
  result (apply_text_changes EUtf16 t cs (line_index_new t)) = Some ($"a-" ++ [233%N] ++ $"Qd" ++ [LF] ++ $"eX+").
Proof. split; [|split]; [repeat constructor|repeat constructor; discriminate|vm_compute; reflexivity]. Qed.

(** A range that ends on a line above its start is not an LSP range; the code then
    trusts the stale table. *)
Theorem c18_unordered_range_refuted : exists t cs t',
  result (apply_text_changes EUtf8 t cs (line_index_new t)) = Some t' /\ one_by_one EUtf8 t cs <> Some t'.
Proof.
  exists ($"abc" ++ [LF] ++ $"de" ++ [LF] ++ $"fghij"), [edit (at_ 1 0) (at_ 1 0) $"xyz"; edit (at_ 2 0) (at_ 0 10) $"!"],
    ($"abc" ++ [LF] ++ $"xyz!fghij").
  vm_compute. split; [reflexivity|discriminate].
Qed.
Print Assumptions c18_unordered_range_refuted.

(** C19 *)
Theorem c19_full_change_discards_earlier : forall enc t pre full post li,
  c_range full = None -> Forall (fun c => c_range c <> None) post ->
  result (apply_text_changes enc t (pre ++ full :: post) li)
  = result (apply_text_changes enc (normalize (c_text full)) post (line_index_new (normalize (c_text full)))).
Proof. exact full_only_later. Qed.
Print Assumptions c19_full_change_discards_earlier.

(** For ordered ranges, in terms of one change at a time. *)
Theorem c19_full_change_then_one_by_one : forall enc t pre full post li,
  c_range full = None -> Forall ordered post -> Forall (fun c => c_range c <> None) post ->
  result (apply_text_changes enc t (pre ++ full :: post) li) = one_by_one enc (normalize (c_text full)) post.
Proof. exact full_then_later. Qed.
Print Assumptions c19_full_change_then_one_by_one.

(** The earlier changes are nonsense for the earlier document. *)
Example c19_example :
  result (apply_text_changes EUtf16 $"old"
    [edit (at_ 9 9) (at_ 3 3) $"??"; whole $"one"; edit (at_ 70 0) (at_ 70 1) $"!"; whole ($"a" ++ [CR; LF] ++ $"b"); edit (at_ 1 0) (at_ 1 1) $"c"]
    (line_index_new $"old")) = Some ($"a" ++ [LF] ++ $"c").
Proof. vm_compute. reflexivity. Qed.

(** C20: after every history of an editor whose edits keep CR LF pairs intact and add
    no lone CR, the server runs, knows exactly the editor's open documents, and
    holds for each the editor's text with CR LF turned into LF, together with the
    line table, the tree and the version of that text. *)
Theorem c20_server_in_step : forall (T : Type) (parse : text -> T) enc h e,
  editor_run enc no_editor h e ->
  exists m, doc_run T parse enc no_documents h = Some m /\
    forall u, match e u with
              | Some (t, v) => exists d, m u = Some d /\ in_step parse enc d t v
              | None => m u = None
              end.
Proof. intros T parse enc h e. apply server_equals_editor. Qed.
Print Assumptions c20_server_in_step.

(** A CR LF document edited over a line end, then by a full replacement; a second
    document closed again. *)
Example c20_example : exists h e,
  editor_run EUtf16 no_editor h e /\ List.length h = 5 /\
  e $"a" = Some ($"x" ++ [CR; LF] ++ $"Z" ++ [CR; LF] ++ $"Q", 7%Z) /\ e $"b" = None /\
  exists m d, doc_run text (fun t => t) EUtf16 no_documents h = Some m /\
    m $"a" = Some d /\ d_contents d = $"x" ++ [LF] ++ $"Z" ++ [LF] ++ $"Q" /\ d_endings d = Crlf /\ m $"b" = None.
Proof.
  exists [EvOpen $"a" 1%Z ($"x" ++ [CR; LF] ++ $"y"); EvOpen $"b" 1%Z $"b";
          EvChange $"a" 7%Z [edit (at_ 1 0) (at_ 1 1) ($"Z" ++ [CR; LF] ++ $"Q")]; EvClose $"b"; EvClose $"b"].
  eexists. split.
  - apply EROpen; [repeat constructor; discriminate|]. apply EROpen; [repeat constructor; discriminate|].
    eapply ERChange; [reflexivity|lia| |apply ERClose, ERClose, ERNil].
    eapply TCCons; [|apply TCNil].
    apply (TidyRange EUtf16 ($"x" ++ [CR; LF]) $"y" [] ($"Z" ++ [CR; LF] ++ $"Q"));
      repeat constructor; discriminate.
  - split; [reflexivity|]. split; [vm_compute; reflexivity|]. split; [vm_compute; reflexivity|].
    eexists. eexists. split; [reflexivity|]. vm_compute. repeat split.
Qed.

(** The protocol also ends lines at a lone CR; the server does not, and an edit on
    the line after one stops it. *)
Theorem c20_lone_cr_refuted : exists t c t',
  editor_change EUtf16 t c t' /\
  doc_run text (fun t => t) EUtf16 no_documents [EvOpen $"a" 1%Z t; EvChange $"a" 2%Z [c]] = None.
Proof.
  exists ($"x" ++ [CR] ++ $"y"), (edit (at_ 1 0) (at_ 1 0) $"z"), ($"x" ++ [CR] ++ $"zy"). split.
  - exact (EditRange EUtf16 ($"x" ++ [CR]) [] $"y" $"z").
  - vm_compute. reflexivity.
Qed.
Print Assumptions c20_lone_cr_refuted.

(** An edit that completes a CR LF pair from its two halves leaves a CR in the
    server's text. *)
Theorem c20_joined_crlf_refuted : exists t c t' m d,
  paired t /\ paired t' /\ editor_change EUtf16 t c t' /\
  doc_run text (fun t => t) EUtf16 no_documents [EvOpen $"a" 1%Z t; EvChange $"a" 2%Z [c]] = Some m /\
  m $"a" = Some d /\ d_contents d <> normalize t'.
Proof.
  exists ($"x" ++ [LF] ++ $"y"), (edit (at_ 0 1) (at_ 0 1) [CR]), ($"x" ++ [CR; LF] ++ $"y").
  eexists. eexists. split; [repeat constructor; discriminate|]. split; [repeat constructor; discriminate|]. split.
  - exact (EditRange EUtf16 $"x" [] ([LF] ++ $"y") [CR]).
  - split; [reflexivity|]. split; [reflexivity|]. vm_compute. discriminate.
Qed.
Print Assumptions c20_joined_crlf_refuted.

(** C21: one notification other than reopening leaves a document as it is or gives it
    the version of the accepted change, and never lowers the version. *)
Theorem c21_version_of_last_change : forall (T : Type) (parse : text -> T) enc m ev m' b u d d',
  doc_step T parse enc m ev = Some (m', b) -> m u = Some d -> m' u = Some d' ->
  (forall v t, ev <> EvOpen u v t) ->
  (d' = d \/ exists cs v, ev = EvChange u v cs /\ d_version d' = Some v) /\
  (forall old, d_version d = Some old -> exists new, d_version d' = Some new /\ (old <= new)%Z).
Proof. intros T parse. exact (version_step parse). Qed.
Print Assumptions c21_version_of_last_change.

Theorem c21_versions_never_decrease : forall (T : Type) (parse : text -> T) enc h m m' u d d',
  doc_run T parse enc m h = Some m' -> m u = Some d -> m' u = Some d' ->
  (forall v t, ~ In (EvOpen u v t) h) ->
  forall old, d_version d = Some old -> exists new, d_version d' = Some new /\ (old <= new)%Z.
Proof. intros T parse. exact (version_run parse). Qed.
Print Assumptions c21_versions_never_decrease.

Theorem c21_older_version_stops_server : forall (T : Type) (parse : text -> T) enc m u v cs d old,
  m u = Some d -> d_version d = Some old -> (v < old)%Z ->
  doc_step T parse enc m (EvChange u v cs) = None.
Proof. intros T parse. exact (older_version_stops parse). Qed.
Print Assumptions c21_older_version_stops_server.

Example c21_example :
  (exists m m' d d',
    doc_run text (fun t => t) EUtf8 no_documents [EvOpen $"a" 3%Z $"x"] = Some m /\ m $"a" = Some d /\ d_version d = Some 3%Z /\
    doc_run text (fun t => t) EUtf8 m [EvChange $"a" 3%Z [whole $"y"]; EvChange $"a" 5%Z [whole $"z"]; EvOpen $"b" 1%Z $""] = Some m' /\
    m' $"a" = Some d' /\ d_version d' = Some 5%Z) /\
  doc_run text (fun t => t) EUtf8 no_documents [EvOpen $"a" 3%Z $"x"; EvChange $"a" 2%Z [whole $"y"]] = None.
Proof.
  split; [|vm_compute; reflexivity]. do 4 eexists.
  split; [reflexivity|]. split; [reflexivity|]. split; [reflexivity|]. split; [reflexivity|]. split; reflexivity.
Qed.
