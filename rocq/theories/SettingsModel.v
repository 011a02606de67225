(** Model of crates/settings, crates/workspace/src/toml_options.rs,
    crates/workspace/src/settings.rs and the client settings of crates/lsp. *)
From Coq Require Import List NArith ZArith Bool Arith String.
From Verif Require Import Text BinSearchModel LineEndingModel.
Import ListNotations.

(** * Bounded numbers *)

(** [u8::try_from(usize)] / serde's [u8] from a TOML integer: the value must fit
    in [0, 2^bits). *)
Definition to_unsigned (bits : N) (v : Z) : option N :=
  if ((0 <=? v)%Z && (v <? 2 ^ Z.of_N bits)%Z)%bool then Some (Z.to_N v) else None.

(** crates/settings/src/indent_width.rs:17,20. *)
Definition indent_width_default : N := 2.
Definition indent_width_max : N := 24.

(** indent_width.rs:85-95, [TryFrom<NonZeroU8>]. *)
Definition indent_width_try_from_nonzero (v : N) : option N :=
  if (v <=? indent_width_max)%N then Some v else None.

(** indent_width.rs:64-73, [TryFrom<u8>] ([NonZeroU8::try_from] fails on 0). *)
Definition indent_width_try_from_u8 (v : N) : option N :=
  if (v =? 0)%N then None else indent_width_try_from_nonzero v.

(** indent_width.rs:75-83, [TryFrom<usize>]; also the serde path
    (indent_width.rs:47-56), which first reads a [u8] from the TOML integer. *)
Definition indent_width_try_from_int (v : Z) : option N :=
  match to_unsigned 8 v with
  | None => None
  | Some v => indent_width_try_from_u8 v
  end.

(** crates/settings/src/line_width.rs:17,20. *)
Definition line_width_default : N := 80.
Definition line_width_max : N := 320.

(** line_width.rs:75-85. *)
Definition line_width_try_from_nonzero (v : N) : option N :=
  if (v <=? line_width_max)%N then Some v else None.
(** line_width.rs:64-73. *)
Definition line_width_try_from_u16 (v : N) : option N :=
  if (v =? 0)%N then None else line_width_try_from_nonzero v.
(** line_width.rs:47-56 (serde reads a [u16]). *)
Definition line_width_try_from_int (v : Z) : option N :=
  match to_unsigned 16 v with
  | None => None
  | Some v => line_width_try_from_u16 v
  end.

(** * Sorted name lists *)

(** [String]'s order: lexicographic on bytes, which for UTF-8 is lexicographic
    on code points. *)
Fixpoint text_cmp (a b : text) : comparison :=
  match a, b with
  | [], [] => Eq
  | [], _ => Lt
  | _, [] => Gt
  | x :: a', y :: b' =>
    match (x ?= y)%N with
    | Eq => text_cmp a' b'
    | c => c
    end
  end.

(** [sort_unstable] on strings.  Equal strings are indistinguishable, so every
    sorting algorithm gives the same result; insertion sort here. *)
Fixpoint insert_sorted (x : text) (l : list text) : list text :=
  match l with
  | [] => [x]
  | y :: r => match text_cmp x y with Gt => y :: insert_sorted x r | _ => x :: l end
  end.
Fixpoint sort_texts (l : list text) : list text :=
  match l with
  | [] => []
  | x :: r => insert_sorted x (sort_texts r)
  end.

(** crates/settings/src/sorted_strings.rs:25-28, [SortedStrings::new]. *)
Definition sorted_strings_new (l : list text) : list text := sort_texts l.

(** sorted_strings.rs:36-40, [contains]. *)
Definition sorted_strings_contains (s : list text) (name : text) : bool :=
  match binary_search_by (fun probe => text_cmp probe name) s with
  | Found _ => true
  | NotFound _ => false
  end.

(** crates/settings/src/table.rs:24-28, [Table::merge]. *)
Definition table_merge (a b : list text) : list text := sorted_strings_new (a ++ b).

(** crates/workspace/src/settings/default_table.rs:5-10, [DEFAULT_TABLE]. *)
Definition DEFAULT_TABLE : list text :=
  sorted_strings_new [$"tribble"; $"fcase"].

(** * Option records *)

(** crates/settings/src/{indent_style,assignment_style,persistent_line_breaks}.rs;
    the first constructor listed in each comment is the default. *)
Inductive indent_style := ISpace | ITab.               (* default Space *)
Inductive assignment_style := AArrow | AEqual | APreserve.  (* default Arrow *)
Inductive persistent_line_breaks := PRespect | PIgnore. (* default Respect *)

(** crates/workspace/src/toml_options.rs:53-235, the fields of
    [FormatTomlOptions] after TOML deserialization ([skip] and [table] are
    sorted on deserialization, settings/src/skip.rs:31-40, table.rs:37-46). *)
Record toml_options := {
  t_line_width : option N;
  t_indent_width : option N;
  t_indent_style : option indent_style;
  t_line_ending : option line_ending_setting;
  t_persistent_line_breaks : option bool;
  t_assignment_style : option assignment_style;
  t_exclude : option (list text);
  t_default_exclude : option bool;
  t_skip : option (list text);
  t_table : option (list text);
  t_default_table : option bool
}.

(** [#[derive(Default)]]: every option absent; used for a missing [format] table. *)
Definition toml_options_default : toml_options :=
  {| t_line_width := None; t_indent_width := None; t_indent_style := None;
     t_line_ending := None; t_persistent_line_breaks := None;
     t_assignment_style := None; t_exclude := None; t_default_exclude := None;
     t_skip := None; t_table := None; t_default_table := None |}.

(** crates/workspace/src/settings.rs:32-45, [FormatSettings].  The compiled
    pattern sets are represented by the list of patterns ([s_exclude]) and by
    presence flags (the default sets are constants). *)
Record format_settings := {
  s_indent_style : indent_style;
  s_indent_width : N;
  s_line_ending : line_ending_setting;
  s_line_width : N;
  s_persistent_line_breaks : persistent_line_breaks;
  s_assignment_style : assignment_style;
  s_exclude : option (list text);
  s_default_exclude : bool;
  s_default_include : bool;
  s_skip : option (list text);
  s_table : option (list text)
}.

(** crates/workspace/src/settings.rs:47-67. *)
Definition format_settings_default : format_settings :=
  {| s_indent_style := ISpace; s_indent_width := indent_width_default;
     s_line_ending := SAuto; s_line_width := line_width_default;
     s_persistent_line_breaks := PRespect; s_assignment_style := AArrow;
     s_exclude := None; s_default_exclude := true; s_default_include := true;
     s_skip := None; s_table := Some DEFAULT_TABLE |}.

Definition unwrap_or {A} (o : option A) (d : A) : A :=
  match o with Some x => x | None => d end.

(** crates/workspace/src/toml_options.rs:238-286, [into_settings].
    [patterns_ok] is the oracle for [ExcludePatterns::try_from_iter] (line 269):
    whether every glob compiles.  [format] is [self.format]: absent when the
    file has no [format] table. *)
Definition into_settings (patterns_ok : list text -> bool)
    (format : option toml_options) : option format_settings :=
  let format := unwrap_or format toml_options_default in
  let table :=
    if unwrap_or (t_default_table format) true
    then Some (match t_table format with
               | Some table => table_merge table DEFAULT_TABLE
               | None => DEFAULT_TABLE
               end)
    else t_table format in
  let settings exclude :=
    {| s_indent_style := unwrap_or (t_indent_style format) ISpace;
       s_indent_width := unwrap_or (t_indent_width format) indent_width_default;
       s_line_ending := unwrap_or (t_line_ending format) SAuto;
       s_line_width := unwrap_or (t_line_width format) line_width_default;
       s_persistent_line_breaks :=
         match t_persistent_line_breaks format with
         | Some true => PRespect
         | Some false => PIgnore
         | None => PRespect
         end;
       s_assignment_style := unwrap_or (t_assignment_style format) AArrow;
       s_exclude := exclude;
       s_default_exclude := unwrap_or (t_default_exclude format) true;
       s_default_include := true;
       s_skip := t_skip format;
       s_table := table |} in
  match t_exclude format with
  | Some exclude => if patterns_ok exclude then Some (settings (Some exclude)) else None
  | None => Some (settings None)
  end.

(** crates/air_r_formatter/src/context.rs:71-95, [RFormatOptions]. *)
Record format_options := {
  o_indent_style : indent_style;
  o_indent_width : N;
  o_line_ending : line_ending;
  o_line_width : N;
  o_persistent_line_breaks : persistent_line_breaks;
  o_assignment_style : assignment_style;
  o_skip : option (list text);
  o_table : option (list text)
}.

(** crates/workspace/src/settings.rs:71-82, [to_format_options]. *)
Definition to_format_options (windows : bool) (s : format_settings) (source : text)
    : format_options :=
  {| o_indent_style := s_indent_style s;
     o_indent_width := s_indent_width s;
     o_line_ending := finalize windows (s_line_ending s) source;
     o_line_width := s_line_width s;
     o_persistent_line_breaks := s_persistent_line_breaks s;
     o_assignment_style := s_assignment_style s;
     o_skip := s_skip s;
     o_table := s_table s |}.

(** crates/lsp/src/settings.rs:15-21, [DocumentSettings]. *)
Record document_settings := {
  d_indent_style : option indent_style;
  d_indent_width : option N;
  d_line_width : option N
}.
Definition document_settings_default : document_settings :=
  {| d_indent_style := None; d_indent_width := None; d_line_width := None |}.

(** crates/lsp/src/settings.rs:36-51, [DocumentSettings::merge]. *)
Definition merge_document_settings (o : format_options) (d : document_settings)
    : format_options :=
  {| o_indent_style := unwrap_or (d_indent_style d) (o_indent_style o);
     o_indent_width := unwrap_or (d_indent_width d) (o_indent_width o);
     o_line_ending := o_line_ending o;
     o_line_width := unwrap_or (d_line_width d) (o_line_width o);
     o_persistent_line_breaks := o_persistent_line_breaks o;
     o_assignment_style := o_assignment_style o;
     o_skip := o_skip o;
     o_table := o_table o |}.

(** crates/lsp/src/workspaces.rs:34-37, [WorkspaceSettings]. *)
Inductive workspace_settings := WToml (s : format_settings) | WFallback (s : format_settings).

(** crates/lsp/src/workspaces.rs:260-276, [to_format_options]. *)
Definition workspace_to_format_options (windows : bool) (w : workspace_settings)
    (source : text) (d : document_settings) : format_options :=
  match w with
  | WToml s => to_format_options windows s source
  | WFallback s => merge_document_settings (to_format_options windows s source) d
  end.

(** crates/lsp/src/settings_vsc.rs:27-40. *)
Inductive vsc_indent_size := VAlias (s : text) | VSize (n : Z).
Record vsc_document_settings := {
  v_insert_spaces : option bool;
  v_indent_size : option vsc_indent_size;
  v_tab_size : option Z
}.

(** settings_vsc.rs:130-135. *)
Definition indent_width_from_usize (n : Z) : N :=
  unwrap_or (indent_width_try_from_int n) indent_width_default.

(** settings_vsc.rs:112-128. *)
Definition indent_width_from_vsc (s : vsc_indent_size) (tab_size : Z) : N :=
  match s with
  | VSize n => indent_width_from_usize n
  | VAlias a =>
    if text_eqb a ($"tabSize") then indent_width_from_usize tab_size
    else indent_width_default
  end.

(** settings_vsc.rs:137-143. *)
Definition indent_style_from_vsc (insert_spaces : bool) : indent_style :=
  if insert_spaces then ISpace else ITab.

(** settings_vsc.rs:71-90. *)
Definition document_settings_from_vsc (v : vsc_document_settings) : document_settings :=
  match v_insert_spaces v, v_indent_size v, v_tab_size v with
  | Some sp, Some sz, Some tab =>
    {| d_indent_style := Some (indent_style_from_vsc sp);
       d_indent_width := Some (indent_width_from_vsc sz tab);
       d_line_width := None |}
  | _, _, _ => document_settings_default
  end.
