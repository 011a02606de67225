(** Model of crates/lsp/src/workspaces.rs, of the workspace handlers in
    crates/lsp/src/handlers_state.rs:202-237 and of
    crates/lsp/src/notifications/sync_file_settings.rs. *)
From Coq Require Import List Bool NArith String.
From Verif Require Import Text ResolverModel ResolverSpec DiscoverModel SettingsModel.
Import ListNotations.

(** [Url], as far as the server looks at it: a [file] URL that converts to a path, one
    that does not, an [untitled] URL, a notebook cell, any other scheme. *)
Inductive url :=
| UFile (p : path)
| UBadFile (u : text)
| UUntitled (u : text)
| UNotebookCell (u : text)
| UOther (u : text).

(** workspaces.rs:239-249, [url_to_path]; its error case is only logged by every
    caller, so it is merged with "not a file". *)
Definition url_to_path (u : url) : option path := match u with UFile p => Some p | _ => None end.

(** The file system at one moment: which paths are files, and [parse_air_toml] plus
    [into_settings] of a configuration file for a root ([None]: unusable). *)
Record file_system := {
  fs_is_file : path -> bool;
  fs_parse : path -> path -> option format_settings
}.

(** toml.rs:54-69. *)
Definition AIR_TOML : text := $"air.toml".
Definition DOT_AIR_TOML : text := $".air.toml".

(** [discover_settings(&[path])]. *)
Definition discover_one (fs : file_system) (p : path) : option (list (path * format_settings)) :=
  discover_settings format_settings (fs_is_file fs) (fs_parse fs) AIR_TOML DOT_AIR_TOML [p].

(** workspaces.rs:22-31. *)
Definition settings_resolver := resolver format_settings.
Definition workspaces := resolver settings_resolver.

(** [settings_resolver.add(&directory, settings)] for each discovered pair. *)
Definition add_discovered (r : settings_resolver) (found : list (path * format_settings)) : settings_resolver :=
  fold_left (fun r ds => fst (resolver_add r (fst ds) (snd ds))) found r.

(** workspaces.rs:70-110, [open_workspace_folder]. *)
Definition open_workspace_folder (fs : file_system) (w : workspaces) (u : url) : workspaces :=
  match url_to_path u with
  | None => w
  | Some p =>
    match discover_one fs p with
    | None => w
    | Some found => fst (resolver_add w p (add_discovered (resolver_new format_settings_default) found))
    end
  end.

(** workspaces.rs:41-58, [from_workspace_folders]. *)
Definition from_workspace_folders (fs : file_system) (folders : list url) : workspaces :=
  fold_left (open_workspace_folder fs) folders (resolver_new (resolver_new format_settings_default)).

(** workspaces.rs:112-125, [close_workspace_folder]. *)
Definition close_workspace_folder (w : workspaces) (u : url) : workspaces :=
  match url_to_path u with
  | None => w
  | Some p => fst (resolver_remove w p)
  end.

(** toml.rs:84-87, [is_air_toml] ([Path::ends_with] compares the last component). *)
Definition is_air_toml (p : path) : bool :=
  match rev p with
  | name :: _ => text_eqb name AIR_TOML || text_eqb name DOT_AIR_TOML
  | [] => false
  end.

(** workspaces.rs:185-213, one matching workspace: its new entry and whether anything
    was found. *)
Definition reload_workspace (fs : file_system) (item : path * settings_resolver)
    : (path * settings_resolver) * bool :=
  let cleared := resolver_clear (snd item) in
  match discover_one fs (fst item) with
  | None => ((fst item, cleared), false)
  | Some found => ((fst item, add_discovered cleared found), match found with [] => false | _ => true end)
  end.

(** workspaces.rs:159-216, [reload_workspaces_matched_by_url]. *)
Definition reload_workspaces_matched_by_url (fs : file_system) (w : workspaces) (u : url) : workspaces * bool :=
  match url_to_path u with
  | None => (w, false)
  | Some p =>
    if negb (is_air_toml p) then (w, false)
    else
      ({| fallback := fallback w;
          items := map (fun item => if starts_with p (fst item) then fst (reload_workspace fs item) else item) (items w) |},
       existsb (fun item => starts_with p (fst item) && snd (reload_workspace fs item)) (items w))
  end.

(** workspaces.rs:225-237, [settings_for_path]. *)
Definition settings_for_path (w : workspaces) (p : path) : workspace_settings :=
  match resolver_resolve w p with
  | None => WFallback (fallback (fallback w))
  | Some (_, r) =>
    match resolver_resolve r p with
    | None => WFallback (fallback (fallback w))
    | Some (_, s) => WToml s
    end
  end.

(** workspaces.rs:128-150, [settings_for_url]. *)
Definition settings_for_url (w : workspaces) (u : url) : workspace_settings :=
  match url_to_path u with
  | Some p => settings_for_path w p
  | None =>
    match u, items w with
    | UUntitled _, [(folder, _)] => settings_for_path w (folder ++ [$"untitled"])
    | _, _ => WFallback (fallback (fallback w))
    end
  end.

(** handlers_state.rs:202-213, [did_change_workspace_folders]. *)
Definition did_change_workspace_folders (fs : file_system) (w : workspaces) (added removed : list url) : workspaces :=
  fold_left close_workspace_folder removed (fold_left (open_workspace_folder fs) added w).

(** handlers_state.rs:215-229, the loop of [did_change_watched_files]. *)
Fixpoint reload_all (fs : file_system) (w : workspaces) (changes : list url) : workspaces * bool :=
  match changes with
  | [] => (w, false)
  | u :: r =>
    let (w1, b1) := reload_workspaces_matched_by_url fs w u in
    let (w2, b2) := reload_all fs w1 r in
    (w2, b1 || b2)
  end.

(** sync_file_settings.rs:16-40. *)
Record file_settings := {
  f_url : url; f_indent_style : indent_style; f_indent_width : N; f_line_width : N
}.

(** sync_file_settings.rs:42-69, [sync_file_settings]: the notification sent, if any. *)
Definition sync_file_settings (enabled : bool) (w : workspaces) (urls : list url) : option (list file_settings) :=
  if negb enabled then None
  else Some (flat_map (fun u =>
    match settings_for_url w u with
    | WToml s => [{| f_url := u; f_indent_style := s_indent_style s;
                     f_indent_width := s_indent_width s; f_line_width := s_line_width s |}]
    | WFallback _ => []
    end) urls).

(** handlers_state.rs:215-237, [did_change_watched_files]; [open_uris] is
    [state.workspace_uris()]. *)
Definition did_change_watched_files (fs : file_system) (enabled : bool) (w : workspaces) (changes open_uris : list url)
    : workspaces * option (list file_settings) :=
  let (w', changed) := reload_all fs w changes in
  (w', if changed then sync_file_settings enabled w' open_uris else None).

(** Workspace events of a session; the file system is the one at that moment. *)
Inductive ws_event :=
| FoldersChanged (added removed : list url)
| FilesChanged (changes : list url).

Definition ws_step (fs : file_system) (w : workspaces) (ev : ws_event) : workspaces :=
  match ev with
  | FoldersChanged added removed => did_change_workspace_folders fs w added removed
  | FilesChanged changes => fst (reload_all fs w changes)
  end.

Definition ws_run (w : workspaces) (h : list (file_system * ws_event)) : workspaces :=
  fold_left (fun w e => ws_step (fst e) w (snd e)) h w.
