(** Property theorems C01, C02, C03. *)
From Coq Require Import List NArith Bool Arith String.
From Verif Require Import Text LineEndingModel LineEndingSpec LineEndingProofs.
Import ListNotations.

(** C01. The moving-gap loop terminates within its bound and returns the text
    without the CRs of CRLF pairs, for every text. *)
Theorem c01_normalize_removes_exactly_crlf_crs : forall x,
  normalize_opt x = Some (without_cr_of_crlf x).
Proof. exact normalize_loop_returns. Qed.
Print Assumptions c01_normalize_removes_exactly_crlf_crs.

Example c01_example :
  normalize_opt ($"a" ++ [CR; CR; LF; LF; CR] ++ $"b" ++ [CR; LF])
  = Some ($"a" ++ [CR; LF; LF; CR] ++ $"b" ++ [LF]).
Proof. vm_compute. reflexivity. Qed.

Theorem c01_normalize_line_end_agnostic : forall a b,
  same_modulo_line_ends a b -> normalize a = normalize b.
Proof. exact same_modulo_normalize. Qed.
Print Assumptions c01_normalize_line_end_agnostic.

Example c01_agnostic_example :
  same_modulo_line_ends ([97%N; CR; LF; 98%N; LF]) ([97%N; LF; 98%N; CR; LF]).
Proof.
  apply smle_char; [discriminate|discriminate|].
  apply (smle_end [98%N; LF] [98%N; CR; LF] [CR; LF] [LF]); cbn; [tauto|tauto|].
  apply smle_char; [discriminate|discriminate|].
  apply (smle_end [] [] [LF] [CR; LF]); cbn; [tauto|tauto|constructor].
Qed.

Theorem c01_unchanged_without_crlf : forall x, ~ has_crlf x -> normalize x = x.
Proof. exact normalize_no_crlf_id. Qed.
Print Assumptions c01_unchanged_without_crlf.

Theorem c01_normalize_ref_agrees : forall x, normalize_ref x = normalize x.
Proof. exact normalize_ref_spec. Qed.
Print Assumptions c01_normalize_ref_agrees.

(** C02. When does a CRLF survive normalization. *)
Theorem c02_crlf_survives_iff_doubled_cr : forall x,
  has_crlf (normalize x) <-> has_crcrlf x.
Proof. exact normalize_leaves_crlf. Qed.
Print Assumptions c02_crlf_survives_iff_doubled_cr.

Theorem c02_normalize_idempotent_iff : forall x,
  normalize (normalize x) = normalize x <-> ~ has_crcrlf x.
Proof. exact normalize_idem. Qed.
Print Assumptions c02_normalize_idempotent_iff.

(** The unrestricted promise "all internal strings use LF" is false. *)
Theorem c02_internal_strings_use_lf_refuted : exists x, has_crlf (normalize x).
Proof.
  exact (ex_intro _ [CR; CR; LF] (ex_intro _ 0 eq_refl)).
Qed.
Print Assumptions c02_internal_strings_use_lf_refuted.

Example c02_example : ~ has_crcrlf [97%N; CR; LF; CR] /\ has_crlf [97%N; CR; LF; CR].
Proof.
  split; [|exists 1; reflexivity].
  intros [a [b H]].
  destruct a as [|? [|? [|? [|? [|? a]]]]]; cbn in H; inversion H.
Qed.

(** C03. *)
Theorem c03_auto_is_crlf_iff_some_crlf : forall windows source,
  finalize windows SAuto source = Crlf <-> In Crlf (line_endings source).
Proof. exact (fun _ => infer_In). Qed.
Print Assumptions c03_auto_is_crlf_iff_some_crlf.

Theorem c03_auto_matches_documentation_iff : forall windows source,
  finalize windows SAuto source = documented_auto source <->
  ~ (first_line_ending source = Some Lf /\ In Crlf (line_endings source)).
Proof. exact (fun _ => infer_documented_iff). Qed.
Print Assumptions c03_auto_matches_documentation_iff.

Theorem c03_explicit_settings_ignore_source : forall windows s1 s2,
  finalize windows SLf s1 = Lf /\ finalize windows SCrlf s1 = Crlf /\
  finalize windows SNative s1 = finalize windows SNative s2 /\
  (finalize windows SNative s1 = Crlf <-> windows = true).
Proof. exact finalize_explicit. Qed.
Print Assumptions c03_explicit_settings_ignore_source.

(** The documented rule "first detected line ending" fails on a mixed file. *)
Theorem c03_first_line_ending_rule_refuted : exists source,
  finalize false SAuto source <> documented_auto source.
Proof. exact first_rule_witness. Qed.
Print Assumptions c03_first_line_ending_rule_refuted.

Example c03_example :
  line_endings [97%N; CR; LF; 98%N; LF] = [Crlf; Lf] /\
  finalize false SAuto [97%N; CR; LF; 98%N; LF] = documented_auto [97%N; CR; LF; 98%N; LF].
Proof. split; reflexivity. Qed.
