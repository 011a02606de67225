(** Specification of the effective settings: a stack of layers, each giving
    values for some of the documented keys (docs/configuration.qmd). *)
From Coq Require Import List NArith ZArith Bool String.
From Verif Require Import Text LineEndingModel LineEndingSpec SettingsModel.
Import ListNotations.

Inductive key := KLineWidth | KIndentWidth | KIndentStyle | KLineEnding
               | KPersistent | KAssignment.

Inductive value :=
| VNum (n : N) | VIndent (i : indent_style) | VEnding (e : line_ending)
| VBool (b : bool) | VAssign (a : assignment_style).

(** Documented defaults (docs/configuration.qmd, "Example configuration"). The
    default line ending is detected from the file: CRLF iff one occurs. *)
Definition doc_default (source : text) (k : key) : value :=
  match k with
  | KLineWidth => VNum 80
  | KIndentWidth => VNum 2
  | KIndentStyle => VIndent ISpace
  | KLineEnding => VEnding (if existsb (fun e => match e with Crlf => true | Lf => false end)
                                      (line_endings source) then Crlf else Lf)
  | KPersistent => VBool true
  | KAssignment => VAssign AArrow
  end.

Definition layer := key -> option value.

(** What an air.toml says about a key ([auto] and [native] line endings are
    turned into a concrete ending). *)
Definition toml_layer (windows : bool) (source : text) (t : toml_options) : layer :=
  fun k =>
  match k with
  | KLineWidth => option_map VNum (t_line_width t)
  | KIndentWidth => option_map VNum (t_indent_width t)
  | KIndentStyle => option_map VIndent (t_indent_style t)
  | KLineEnding =>
    match t_line_ending t with
    | None | Some SAuto => None
    | Some SLf => Some (VEnding Lf)
    | Some SCrlf => Some (VEnding Crlf)
    | Some SNative => Some (VEnding (if windows then Crlf else Lf))
    end
  | KPersistent => option_map VBool (t_persistent_line_breaks t)
  | KAssignment => option_map VAssign (t_assignment_style t)
  end.

(** What the editor says: only indentation and line width. *)
Definition editor_layer (d : document_settings) : layer :=
  fun k =>
  match k with
  | KLineWidth => option_map VNum (d_line_width d)
  | KIndentWidth => option_map VNum (d_indent_width d)
  | KIndentStyle => option_map VIndent (d_indent_style d)
  | _ => None
  end.

Fixpoint first_layer (ls : list layer) (k : key) (default : value) : value :=
  match ls with
  | [] => default
  | l :: r => match l k with Some v => v | None => first_layer r k default end
  end.

(** Reading back an effective option. *)
Definition effective (o : format_options) (k : key) : value :=
  match k with
  | KLineWidth => VNum (o_line_width o)
  | KIndentWidth => VNum (o_indent_width o)
  | KIndentStyle => VIndent (o_indent_style o)
  | KLineEnding => VEnding (o_line_ending o)
  | KPersistent => VBool (match o_persistent_line_breaks o with PRespect => true | PIgnore => false end)
  | KAssignment => VAssign (o_assignment_style o)
  end.

(** Names recognised by configuration. *)
Definition skips (o : format_options) (name : text) : bool :=
  match o_skip o with Some s => sorted_strings_contains s name | None => false end.
Definition tables (o : format_options) (name : text) : bool :=
  match o_table o with Some s => sorted_strings_contains s name | None => false end.

(** A deserialized option record holds sorted lists (they are built by
    [SortedStrings::new] from the user's lists). *)
Definition from_user_lists (t : toml_options) (skip table : option (list text)) : Prop :=
  t_skip t = option_map sorted_strings_new skip /\
  t_table t = option_map sorted_strings_new table.

Definition listed (o : option (list text)) (name : text) : Prop :=
  match o with Some l => In name l | None => False end.
