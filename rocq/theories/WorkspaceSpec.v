(** Specification of workspace configuration. *)
From Coq Require Import List Bool NArith.
From Verif Require Import Text ResolverModel ResolverSpec DiscoverModel DiscoverSpec SettingsModel WorkspaceModel.
Import ListNotations.

(** The configuration file of a directory. *)
Definition config_of (fs : file_system) : path -> option path :=
  find_air_toml_in_directory (fs_is_file fs) AIR_TOML DOT_AIR_TOML.

(** [w] is the deepest of [folders] that contains [f]. *)
Definition folder_of (folders : list path) (f w : path) : Prop :=
  In w folders /\ ancestor_or_self w f /\
  forall w', In w' folders -> ancestor_or_self w' f -> length w' <= length w.

(** The settings [s] govern [f]: they are written in the configuration file nearest to
    the deepest open folder that contains [f]. *)
Definition governs (fs : file_system) (folders : list path) (f : path) (s : format_settings) : Prop :=
  exists w d, folder_of folders f w /\ nearest (config_of fs) w d /\
              settings_in format_settings (config_of fs) (fs_parse fs) d s.

(** Every open folder has a usable configuration file, or none. *)
Definition readable (fs : file_system) (folders : list path) : Prop :=
  forall w d, In w folders -> nearest (config_of fs) w d ->
    ~ broken format_settings (config_of fs) (fs_parse fs) d.

(** The folders open after an event. *)
Definition paths_of (us : list url) : list path :=
  flat_map (fun u => match u with UFile p => [p] | _ => [] end) us.
Definition open_after (folders : list path) (ev : ws_event) : list path :=
  match ev with
  | FoldersChanged added removed =>
    filter (fun p => negb (existsb (path_eqb p) (paths_of removed))) (folders ++ paths_of added)
  | FilesChanged _ => folders
  end.

(** The folders an event opens. *)
Definition opened_by (ev : ws_event) : list path :=
  match ev with FoldersChanged added _ => paths_of added | FilesChanged _ => [] end.

(** The configuration files of directory [d] are the same. *)
Definition same_config (fs fs' : file_system) (d : path) : Prop :=
  forall name, name = AIR_TOML \/ name = DOT_AIR_TOML ->
    fs_is_file fs (d ++ [name]) = fs_is_file fs' (d ++ [name]) /\
    forall root, fs_parse fs (d ++ [name]) root = fs_parse fs' (d ++ [name]) root.

Definition reports (ev : ws_event) (p : path) : Prop :=
  match ev with FilesChanged changes => In (UFile p) changes | FoldersChanged _ _ => False end.

(** Every change to a configuration file in or above an open folder is in the folder
    itself and reported, and no folder has a broken configuration file when it is
    opened.  A configuration file may well be broken later, and repaired again. *)
Fixpoint watched (fs : file_system) (folders : list path) (h : list (file_system * ws_event)) : Prop :=
  match h with
  | [] => True
  | (fs', ev) :: r =>
    (forall w d, In w folders -> ancestor_or_self d w ->
       same_config fs fs' d \/
       d = w /\ exists name, (name = AIR_TOML \/ name = DOT_AIR_TOML) /\ reports ev (w ++ [name])) /\
    readable fs' (opened_by ev) /\
    watched fs' (open_after folders ev) r
  end.

Definition last_fs (fs : file_system) (h : list (file_system * ws_event)) : file_system :=
  fold_left (fun _ e => fst e) h fs.
Definition open_folders (folders : list path) (h : list (file_system * ws_event)) : list path :=
  fold_left (fun fo e => open_after fo (snd e)) h folders.
