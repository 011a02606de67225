(** Property theorems C04, C05, C06. *)
From Coq Require Import List NArith ZArith Bool String.
From Verif Require Import Text BinSearchModel LineEndingModel SettingsModel SettingsSpec SettingsProofs.
Import ListNotations.

(** C04. [indent_width_try_from_int] is both the [usize] conversion and the
    TOML path; the machine-integer step is part of the model. *)
Theorem c04_indent_width_range : forall v n,
  indent_width_try_from_int v = Some n <-> (1 <= v <= 24)%Z /\ n = Z.to_N v.
Proof. exact indent_width_iff. Qed.
Print Assumptions c04_indent_width_range.

Theorem c04_line_width_range : forall v n,
  line_width_try_from_int v = Some n <-> (1 <= v <= 320)%Z /\ n = Z.to_N v.
Proof. exact line_width_iff. Qed.
Print Assumptions c04_line_width_range.

(** An out-of-range editor indent falls back to the default instead of wrapping. *)
Theorem c04_editor_indent_width : forall n,
  indent_width_from_usize n = (if ((1 <=? n) && (n <=? 24))%Z%bool then Z.to_N n else 2%N).
Proof. exact vsc_width_iff. Qed.
Print Assumptions c04_editor_indent_width.

Example c04_examples :
  map indent_width_try_from_int [0; 1; 24; 25; 256; 258; -1]%Z
  = [None; Some 1; Some 24; None; None; None; None]%N /\
  map line_width_try_from_int [0; 1; 320; 321; 65536; 65537]%Z
  = [None; Some 1; Some 320; None; None; None]%N.
Proof. split; vm_compute; reflexivity. Qed.

(** C05. *)
Theorem c05_lookup_is_membership : forall names name,
  sorted_strings_contains (sorted_strings_new names) name = true <-> In name names.
Proof. exact contains_new. Qed.
Print Assumptions c05_lookup_is_membership.

Theorem c05_merge_is_union : forall a b name,
  sorted_strings_contains (table_merge (sorted_strings_new a) (sorted_strings_new b)) name = true
  <-> In name a \/ In name b.
Proof. exact contains_merge. Qed.
Print Assumptions c05_merge_is_union.

Theorem c05_order_and_repetition_irrelevant : forall a b name,
  (forall n, In n a <-> In n b) ->
  sorted_strings_contains (sorted_strings_new a) name
  = sorted_strings_contains (sorted_strings_new b) name.
Proof. exact contains_order_irrelevant. Qed.
Print Assumptions c05_order_and_repetition_irrelevant.

(** The names recognised after reading an air.toml. *)
Theorem c05_configured_names : forall windows ok format s source d skip table name,
  into_settings ok format = Some s ->
  from_user_lists (unwrap_or format toml_options_default) skip table ->
  let o := workspace_to_format_options windows (WToml s) source d in
  (skips o name = true <-> listed skip name) /\
  (tables o name = true <->
     listed table name \/
     (t_default_table (unwrap_or format toml_options_default) <> Some false /\
      In name [$"tribble"; $"fcase"])).
Proof. exact toml_names. Qed.
Print Assumptions c05_configured_names.

Example c05_example :
  let names := [$"tribble"; $"b"; $"a"; $"b"; $"fcase"] in
  sorted_strings_contains (sorted_strings_new names) ($"fcase") = true /\
  sorted_strings_contains (sorted_strings_new names) ($"fcas") = false /\
  sorted_strings_contains (table_merge (sorted_strings_new [$"zz"; $"mm"]) DEFAULT_TABLE) ($"tribble") = true.
Proof. vm_compute. repeat split. Qed.

(** C06. *)
Theorem c06_toml_governed : forall windows ok format s source d k,
  into_settings ok format = Some s ->
  effective (workspace_to_format_options windows (WToml s) source d) k
  = first_layer [toml_layer windows source (unwrap_or format toml_options_default)] k
      (doc_default source k).
Proof. exact toml_effective. Qed.
Print Assumptions c06_toml_governed.

Theorem c06_no_toml_editor_then_default : forall windows source d k,
  effective (workspace_to_format_options windows (WFallback format_settings_default) source d) k
  = first_layer [editor_layer d] k (doc_default source k).
Proof. exact fallback_effective. Qed.
Print Assumptions c06_no_toml_editor_then_default.

Theorem c06_editor_never_overrides_toml : forall windows s source d1 d2,
  workspace_to_format_options windows (WToml s) source d1
  = workspace_to_format_options windows (WToml s) source d2.
Proof. exact toml_editor_irrelevant. Qed.
Print Assumptions c06_editor_never_overrides_toml.

Theorem c06_no_toml_names : forall windows source d name,
  let o := workspace_to_format_options windows (WFallback format_settings_default) source d in
  skips o name = false /\ (tables o name = true <-> In name [$"tribble"; $"fcase"]).
Proof. exact fallback_names. Qed.
Print Assumptions c06_no_toml_names.

(** The options that select files: the patterns of the file itself, the built-in
    exclusions unless it says [default-exclude = false], the built-in inclusions
    always; without an air.toml the built-in ones only. *)
Theorem c06_toml_file_selection : forall ok format s, into_settings ok format = Some s ->
  let t := unwrap_or format toml_options_default in
  s_exclude s = t_exclude t /\
  (s_default_exclude s = false <-> t_default_exclude t = Some false) /\
  s_default_include s = true.
Proof. exact toml_selection. Qed.
Print Assumptions c06_toml_file_selection.

Theorem c06_no_toml_file_selection :
  s_exclude format_settings_default = None /\
  s_default_exclude format_settings_default = true /\
  s_default_include format_settings_default = true.
Proof. exact fallback_selection. Qed.
Print Assumptions c06_no_toml_file_selection.

Theorem c06_toml_rejected_iff_bad_pattern : forall ok format,
  into_settings ok format = None <->
  exists ex, t_exclude (unwrap_or format toml_options_default) = Some ex /\ ok ex = false.
Proof. exact into_settings_fails_iff. Qed.
Print Assumptions c06_toml_rejected_iff_bad_pattern.

Theorem c06_editor_indentation_all_or_nothing : forall v,
  let d := document_settings_from_vsc v in
  (d_indent_style d <> None <-> d_indent_width d <> None) /\
  (d_indent_style d <> None <->
     v_insert_spaces v <> None /\ v_indent_size v <> None /\ v_tab_size v <> None) /\
  d_line_width d = None /\
  (forall w, d_indent_width d = Some w -> (1 <= w <= 24)%N).
Proof. exact vsc_all_or_nothing. Qed.
Print Assumptions c06_editor_indentation_all_or_nothing.

Example c06_example :
  let t := {| t_line_width := Some 100%N; t_indent_width := None; t_indent_style := Some ITab;
              t_line_ending := None; t_persistent_line_breaks := Some false;
              t_assignment_style := None; t_exclude := Some [$"x"]; t_default_exclude := None;
              t_skip := Some (sorted_strings_new [$"b"; $"a"]); t_table := None;
              t_default_table := Some false |} in
  let d := {| d_indent_style := Some ISpace; d_indent_width := Some 8%N; d_line_width := None |} in
  exists s, into_settings (fun _ => true) (Some t) = Some s /\
    map (effective (workspace_to_format_options false (WToml s) [CR; LF] d))
      [KLineWidth; KIndentWidth; KIndentStyle; KLineEnding; KPersistent; KAssignment]
    = [VNum 100; VNum 2; VIndent ITab; VEnding Crlf; VBool false; VAssign AArrow] /\
    from_user_lists t (Some [$"b"; $"a"]) None.
Proof. eexists. split; [reflexivity|]. split; [vm_compute; reflexivity|]. split; reflexivity. Qed.
