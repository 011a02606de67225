(** Property theorems C22 and C27. *)
From Coq Require Import List NArith ZArith Arith String Lia Permutation.
From Verif Require Import Text LineEndingModel LineEndingSpec LineIndexModel LineIndexSpec DocsModel DocsSpec DocsProofs DocsProps
  TextEditModel TextEditSpec TextEditProps ProtoEditsModel ProtoEditsSpec ProtoEditsProofs.
Import ListNotations.

Definition te (s e : position) (x : text) : text_edit := {| te_range := {| r_start := s; r_end := e |}; te_text := x |}.

Ltac paired_tac := cbn; repeat first [apply PNil | apply PEnd | apply PChar; [discriminate|]].

(** C22: non-overlapping edits, no two of them starting at one position, given in any
    order, replace exactly the ranges they name in the original document. *)
Theorem c22_edits_simultaneous : forall enc t es ds, Forall2 (denotes enc t) es ds ->
  ForallOrdPairs apart ds -> NoDup (map i_start ds) ->
  result (apply_text_edits enc t es (line_index_new t)) = Some (replaced ds 0 t).
Proof. exact text_edits_simultaneous. Qed.
Print Assumptions c22_edits_simultaneous.

Theorem c22_order_irrelevant : forall enc t es es' ds, Forall2 (denotes enc t) es ds ->
  NoDup (map i_start ds) -> Permutation es es' -> forall li,
  apply_text_edits enc t es li = apply_text_edits enc t es' li.
Proof. exact text_edits_order. Qed.
Print Assumptions c22_order_irrelevant.

Example c22_example :
  let t := $"ab" ++ [LF; 233%N] ++ $"cd" ++ [LF] ++ $"ef" in
  let es := [te (at_ 1 1) (at_ 2 1) $"X"; te (at_ 2 2) (at_ 2 2) ([CR; LF]); te (at_ 0 1) (at_ 0 2) $"long"] in
  let ds := [ed 5 9 $"X"; ed 10 10 [LF]; ed 1 2 $"long"] in
  Forall2 (denotes EUtf16 t) es ds /\ ForallOrdPairs apart ds /\ NoDup (map i_start ds) /\
  replaced ds 0 t = $"along" ++ [LF; 233%N] ++ $"Xf" ++ [LF].
Proof.
  split; [|split; [|split]].
  - constructor; [|constructor; [|constructor; [|constructor]]].
    + exists ($"ab" ++ [LF; 233%N]), ($"cd" ++ [LF] ++ $"e"), $"f". vm_compute. repeat split.
    + exists ($"ab" ++ [LF; 233%N] ++ $"cd" ++ [LF] ++ $"ef"), [], []. vm_compute. repeat split.
    + exists $"a", $"b", ([LF; 233%N] ++ $"cd" ++ [LF] ++ $"ef"). vm_compute. repeat split.
  - unfold apart. repeat (constructor; cbn; try lia).
  - cbn. repeat (constructor; cbn; try lia).
  - vm_compute. reflexivity.
Qed.

(** Insertions at one position come out in reverse of their order in the list. *)
Theorem c22_insertion_order_refuted : exists t a b ds,
  Forall2 (denotes EUtf8 t) [a; b] ds /\ ForallOrdPairs apart ds /\
  replaced ds 0 t = $"xABy" /\
  result (apply_text_edits EUtf8 t [a; b] (line_index_new t)) = Some $"xBAy".
Proof.
  exists $"xy", (te (at_ 0 1) (at_ 0 1) $"A"), (te (at_ 0 1) (at_ 0 1) $"B"), [ed 1 1 $"A"; ed 1 1 $"B"].
  split; [|split; [|split; vm_compute; reflexivity]].
  - repeat constructor; exists $"x", [], $"y"; vm_compute; repeat split.
  - unfold apart. repeat (constructor; cbn; try lia).
Qed.
Print Assumptions c22_insertion_order_refuted.

(** An insertion listed before a replacement starting there is swallowed by it. *)
Theorem c22_insertion_lost_refuted : exists t a b ds,
  Forall2 (denotes EUtf8 t) [a; b] ds /\ ForallOrdPairs apart ds /\
  replaced ds 0 t = $"xAB" /\
  result (apply_text_edits EUtf8 t [a; b] (line_index_new t)) = Some $"xBy".
Proof.
  exists $"xy", (te (at_ 0 1) (at_ 0 1) $"A"), (te (at_ 0 1) (at_ 0 2) $"B"), [ed 1 1 $"A"; ed 1 2 $"B"].
  split; [|split; [|split; vm_compute; reflexivity]].
  - repeat constructor; [exists $"x", [], $"y"|exists $"x", $"y", []]; vm_compute; repeat split.
  - unfold apart. repeat (constructor; cbn; try lia).
Qed.
Print Assumptions c22_insertion_lost_refuted.

(** C27: the client that applies the returned edits to its own text obtains the
    formatted text in the line ends of its document, and nothing else. *)
Theorem c27_client_obtains_formatted : forall (T : Type) (parse : text -> T) has_error fmt dis windows setting enc d u v es y notebook,
  diff_contract dis -> in_step parse enc d u v -> uniform u -> d_endings d = infer u ->
  setting = SAuto \/ setting = SLf ->
  fmt (normalize u) = Some y ->
  document_formatting T has_error (printed windows setting fmt) dis false notebook d = Edits es ->
  forall x, cell_end notebook y x ->
  forall u', client_edits enc [] u es u' <-> u' = match infer u with Lf => x | Crlf => to_crlf x end.
Proof. exact formatted_document_cell. Qed.
Print Assumptions c27_client_obtains_formatted.

(** For any printed text: exactly it in an LF document; with LF turned into CR LF in a
    CRLF document; equal to it up to line ends in a document with both. *)
Theorem c27_client_obtains_printed : forall (T : Type) (parse : text -> T) has_error print dis, diff_contract dis ->
  forall enc d u v es notebook out,
  in_step parse enc d u v -> paired u ->
  document_formatting T has_error print dis false notebook d = Edits es ->
  print (normalize u) = Some out ->
  forall x, cell_end notebook out x ->
  (no_cr u -> d_endings d = Lf -> forall u', client_edits enc [] u es u' <-> u' = x) /\
  (u = to_crlf (normalize u) -> d_endings d = Crlf -> forall u', client_edits enc [] u es u' <-> u' = to_crlf x) /\
  (no_cr x -> exists u', client_edits enc [] u es u' /\ normalize u' = x /\ paired u' /\
     forall u2, client_edits enc [] u es u2 -> u2 = u').
Proof. intros T parse has_error print dis Hd. exact (formatting_client_cell T parse has_error print dis Hd). Qed.
Print Assumptions c27_client_obtains_printed.

(** Edits are sent exactly when something is to change: otherwise the document is
    excluded, has a parse error, fails to format, or is formatted already. *)
Theorem c27_when_edits_are_sent : forall (T : Type) (parse : text -> T) has_error print dis, diff_contract dis ->
  forall enc d u v excluded notebook, in_step parse enc d u v ->
  match document_formatting T has_error print dis excluded notebook d with
  | Edits _ => excluded = false /\ has_error (parse (normalize u)) = false /\
               exists out, print (normalize u) = Some out /\ out <> normalize u
  | NoEdits => excluded = true \/ has_error (parse (normalize u)) = true \/ print (normalize u) = Some (normalize u)
  | Failed => print (normalize u) = None
  end.
Proof. intros T parse has_error print dis Hd. exact (formatting_replies parse has_error print dis Hd). Qed.
Print Assumptions c27_when_edits_are_sent.

(** A diff that meets the contract: common prefix kept, the rest replaced. *)
Fixpoint prefix_diff (a b : text) : list chunk :=
  match a, b with
  | x :: a', y :: b' => if (x =? y)%N then Equal [x] :: prefix_diff a' b' else [Delete a; Insert b]
  | _, _ => [Delete a; Insert b]
  end.

Lemma prefix_diff_contract : diff_contract prefix_diff.
Proof.
  unfold diff_contract. induction a as [|x a IH]; intro b; [cbn; rewrite app_nil_r; auto|]. destruct b as [|y b]; [cbn; rewrite app_nil_r; auto|].
  cbn [prefix_diff]. destruct (N.eqb_spec x y) as [->|_].
  - destruct (IH b) as [H1 H2]. unfold old_text, new_text in *. cbn. rewrite H1, H2. auto.
  - unfold old_text, new_text. cbn. rewrite !app_nil_r. auto.
Qed.

Definition accepts (_ : text) : bool := false.

Example c27_example :
  let u := $"x" ++ [CR; LF] ++ [233%N] ++ $"+1" ++ [CR; LF] ++ $"y" in
  let y := $"x" ++ [LF] ++ [233%N] ++ $" + 1" ++ [LF] ++ $"y" ++ [LF] in
  let d := document_new text (fun t => t) u (Some 1%Z) EUtf16 in
  let es := [te (at_ 1 1) (at_ 2 1) ($" + 1" ++ [CR; LF] ++ $"y" ++ [CR; LF])] in
  in_step (fun t => t) EUtf16 d u 1%Z /\ uniform u /\ d_endings d = infer u /\ infer u = Crlf /\
  document_formatting text accepts (printed true SAuto (fun _ => Some y)) prefix_diff false false d = Edits es.
Proof.
  split; [vm_compute; repeat split|]. split.
  - right. exists ($"x" ++ [LF] ++ [233%N] ++ $"+1" ++ [LF] ++ $"y"). split; [|reflexivity]. intro H. vm_compute in H. intuition discriminate.
  - split; [reflexivity|]. split; vm_compute; reflexivity.
Qed.

(** With [line-ending = "crlf"] a CRLF document receives CR CR LF. *)
Theorem c27_configured_crlf_refuted : exists u y d es u',
  in_step (fun t => t) EUtf8 d u 1%Z /\ uniform u /\ d_endings d = infer u /\ no_cr y /\
  document_formatting text accepts (printed false SCrlf (fun _ => Some y)) prefix_diff false false d = Edits es /\
  client_edits EUtf8 [] u es u' /\ u' <> to_crlf y /\ has_crcrlf u'.
Proof.
  exists ($"x" ++ [CR; LF]), ($"y" ++ [LF]), (document_new text (fun t => t) ($"x" ++ [CR; LF]) (Some 1%Z) EUtf8),
    [te (at_ 0 0) (at_ 1 0) ($"y" ++ [CR; CR; LF])], ($"y" ++ [CR; CR; LF]).
  split; [vm_compute; repeat split|]. split.
  { right. exists ($"x" ++ [LF]). split; [|reflexivity]. intro H. vm_compute in H. intuition discriminate. }
  split; [reflexivity|]. split; [intro H; vm_compute in H; intuition discriminate|]. split; [vm_compute; reflexivity|]. split.
  { apply (CEdit EUtf8 [] [] ($"x" ++ [CR; LF]) [] ($"y" ++ [CR; CR; LF]) [] []); [constructor| |constructor].
    paired_tac. }
  split; [vm_compute; discriminate|]. exists $"y", []. reflexivity.
Qed.
Print Assumptions c27_configured_crlf_refuted.

(** The line ending is remembered from the opening: after the editor replaced the
    text of an LF document by a CRLF text, formatting leaves it with both. *)
Theorem c27_line_ending_of_opening_refuted : exists h m d u y es u',
  editor_run EUtf8 no_editor h (editor_set (editor_set no_editor $"a" (Some ([], 1%Z))) $"a" (Some (u, 2%Z))) /\
  doc_run text (fun t => t) EUtf8 no_documents h = Some m /\ m $"a" = Some d /\ uniform u /\ infer u = Crlf /\ no_cr y /\
  document_formatting text accepts (printed false SAuto (fun _ => Some y)) prefix_diff false false d = Edits es /\
  client_edits EUtf8 [] u es u' /\ u' <> to_crlf y /\ ~ uniform u'.
Proof.
  exists [EvOpen $"a" 1%Z []; EvChange $"a" 2%Z [whole ($"x" ++ [CR; LF] ++ $"y")]].
  eexists. eexists. exists ($"x" ++ [CR; LF] ++ $"y"), ($"x" ++ [LF] ++ $"y" ++ [LF]),
    [te (at_ 1 1) (at_ 1 1) [LF]], ($"x" ++ [CR; LF] ++ $"y" ++ [LF]).
  split.
  { constructor; [constructor|]. econstructor; [reflexivity|lia| |constructor].
    econstructor; [apply TidyFull; paired_tac|constructor]. }
  split; [reflexivity|]. split; [reflexivity|]. split.
  { right. exists ($"x" ++ [LF] ++ $"y"). split; [|reflexivity]. intro H. vm_compute in H. intuition discriminate. }
  split; [reflexivity|]. split; [intro H; vm_compute in H; intuition discriminate|]. split; [vm_compute; reflexivity|]. split.
  { apply (CEdit EUtf8 [] ($"x" ++ [CR; LF] ++ $"y") [] [] [LF] [] []); [paired_tac|constructor|constructor]. }
  split; [vm_compute; discriminate|]. intros [H|[t [Ht H]]].
  - apply H. vm_compute. auto.
  - destruct t as [|c0 t]; [discriminate|]. cbn in H. destruct (c0 =? LF)%N; [discriminate|]. injection H as _ H.
    destruct t as [|c1 t]; [discriminate|]. cbn in H. destruct (c1 =? LF)%N; [|injection H as <- H; apply Ht; vm_compute; auto]. injection H as H.
    destruct t as [|c2 t]; [discriminate|]. cbn in H. destruct (c2 =? LF)%N; [discriminate|]. injection H as _ H.
    destruct t as [|c3 t]; [discriminate|]. cbn in H. destruct (c3 =? LF)%N eqn:E; [discriminate|]. injection H as <- H. discriminate.
Qed.
Print Assumptions c27_line_ending_of_opening_refuted.
