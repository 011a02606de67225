(** Property theorems: workspace configuration in the language server. *)
From Coq Require Import List Bool NArith String.
From Verif Require Import Text ResolverModel ResolverSpec ResolverProofs DiscoverModel DiscoverSpec DiscoverProofs SettingsModel WorkspaceModel WorkspaceSpec WorkspaceProofs.
Import ListNotations.

(** C31: after any history the server holds what a fresh server would load from the
    current file system for the folders now open, if all of these can be read. *)
Theorem c31_history_irrelevant : forall fs us h,
  readable fs (paths_of us) -> watched fs (paths_of us) h ->
  readable (last_fs fs h) (open_folders (paths_of us) h) ->
  ws_run (from_workspace_folders fs us) h
  = from_workspace_folders (last_fs fs h) (map UFile (open_folders (paths_of us) h)).
Proof. exact history_is_fresh. Qed.
Print Assumptions c31_history_irrelevant.

(** A file has the settings [s] of an air.toml if and only if [s] are the settings
    nearest to the deepest open folder that contains the file.  If that air.toml is
    broken by now, the file has the default settings, not the ones loaded before. *)
Theorem c31_settings_of_file : forall fs us h f s,
  readable fs (paths_of us) -> watched fs (paths_of us) h ->
  let now := last_fs fs h in
  let folders := open_folders (paths_of us) h in
  let w := ws_run (from_workspace_folders fs us) h in
  (settings_for_url w (UFile f) = WToml s <-> governs now folders f s) /\
  ((forall s, ~ governs now folders f s) -> settings_for_url w (UFile f) = WFallback format_settings_default).
Proof.
  intros fs us h f s Hr Hw now folders w. apply settings_iff.
  apply run_holds; [apply fresh_holds; exact Hr|exact Hw].
Qed.
Print Assumptions c31_settings_of_file.

(** An untitled document belongs to the open folder if there is exactly one. *)
Theorem c31_settings_of_untitled : forall fs us h name s,
  readable fs (paths_of us) -> watched fs (paths_of us) h ->
  let now := last_fs fs h in
  let folders := open_folders (paths_of us) h in
  let w := ws_run (from_workspace_folders fs us) h in
  settings_for_url w (UUntitled name) = WToml s <->
  exists p, (forall q, In q folders <-> q = p) /\ governs now folders (p ++ [$"untitled"]) s.
Proof. exact untitled_settings. Qed.
Print Assumptions c31_settings_of_untitled.

(** Other documents never have settings from an air.toml. *)
Theorem c31_settings_of_others : forall fs us h u,
  readable fs (paths_of us) -> watched fs (paths_of us) h ->
  (forall f, u <> UFile f) -> (forall name, u <> UUntitled name) ->
  settings_for_url (ws_run (from_workspace_folders fs us) h) u = WFallback format_settings_default.
Proof. exact others_settings. Qed.
Print Assumptions c31_settings_of_others.

(** C30: a notification is sent only if enabled; it mentions exactly the requested
    documents that have settings from an air.toml, once each, with these settings. *)
Theorem c30_sync_exactly_governed : forall enabled w us,
  match sync_file_settings enabled w us with
  | None => enabled = false
  | Some l => enabled = true /\
      (forall x, In x l <-> exists u s, In u us /\ settings_for_url w u = WToml s /\
         f_url x = u /\ f_indent_style x = s_indent_style s /\ f_indent_width x = s_indent_width s /\ f_line_width x = s_line_width s) /\
      (NoDup us -> NoDup (map f_url l))
  end.
Proof. exact sync_exact. Qed.
Print Assumptions c30_sync_exactly_governed.

(** After watched files changed, a notification about all open documents is sent if
    and only if enabled and some reported air.toml lies in an open folder that (still)
    has a usable configuration file. *)
Theorem c30_when_sent : forall fs us h fs' changes enabled open_uris,
  readable fs (paths_of us) -> watched fs (paths_of us) (h ++ [(fs', FilesChanged changes)]) ->
  let folders := open_folders (paths_of us) h in
  let w := ws_run (from_workspace_folders fs us) h in
  let w' := ws_run (from_workspace_folders fs us) (h ++ [(fs', FilesChanged changes)]) in
  fst (did_change_watched_files fs' enabled w changes open_uris) = w' /\
  forall l, snd (did_change_watched_files fs' enabled w changes open_uris) = Some l <->
    sync_file_settings enabled w' open_uris = Some l /\
    exists p name q d s, In (UFile (p ++ [name])) changes /\ (name = AIR_TOML \/ name = DOT_AIR_TOML) /\
      In q folders /\ ancestor_or_self q (p ++ [name]) /\ nearest (config_of fs') q d /\
      settings_in format_settings (config_of fs') (fs_parse fs') d s.
Proof. exact watched_sync. Qed.
Print Assumptions c30_when_sent.

(** A concrete session: /p is open; /p/air.toml changes; then /p/sub is opened too,
    which has its own air.toml. *)
Definition with_width (n : N) : format_settings :=
  {| s_indent_style := ISpace; s_indent_width := n; s_line_ending := s_line_ending format_settings_default; s_line_width := 80%N;
     s_persistent_line_breaks := s_persistent_line_breaks format_settings_default; s_assignment_style := s_assignment_style format_settings_default; s_exclude := None; s_default_exclude := true;
     s_default_include := true; s_skip := None; s_table := None |}.
Definition disk_of (l : list (path * N)) : file_system :=
  {| fs_is_file := fun p => existsb (fun e => path_eqb p (fst e)) l;
     fs_parse := fun p _ => match List.find (fun e => path_eqb p (fst e)) l with Some (_, n) => Some (with_width n) | None => Some (with_width 0) end |}.
Definition toml (d : path) : path := d ++ [AIR_TOML].

Definition fs0 := disk_of [(toml [$"p"], 4%N)].
Definition fs1 := disk_of [(toml [$"p"], 8%N)].
Definition fs2 := disk_of [(toml [$"p"], 8%N); (toml [$"p"; $"sub"], 3%N)].
Definition session : list (file_system * ws_event) :=
  [(fs1, FilesChanged [UFile (toml [$"p"])]); (fs2, FoldersChanged [UFile [$"p"; $"sub"]] [])].

Lemma disk_readable : forall l folders, readable (disk_of l) folders.
Proof.
  intros l folders w d _ _ [t [_ Ht]]. cbn in Ht. destruct (List.find _ l) as [[? ?]|]; discriminate.
Qed.

Lemma above_p : forall d, ancestor_or_self d [$"p"] -> d = [] \/ d = [$"p"].
Proof.
  intros d [r H]. destruct d as [|c d]; [left; reflexivity|right]. injection H as <- H. destruct d; [reflexivity|discriminate].
Qed.

Ltac same := intros name [-> | ->]; (split; [vm_compute; reflexivity|intro root; vm_compute; reflexivity]).

Example c31_example :
  readable fs0 [[$"p"]] /\ watched fs0 [[$"p"]] session /\
  let w := ws_run (from_workspace_folders fs0 [UFile [$"p"]]) session in
  settings_for_url (from_workspace_folders fs0 [UFile [$"p"]]) (UFile [$"p"; $"a.R"]) = WToml (with_width 4) /\
  settings_for_url w (UFile [$"p"; $"a.R"]) = WToml (with_width 8) /\
  settings_for_url w (UFile [$"p"; $"sub"; $"a.R"]) = WToml (with_width 3) /\
  settings_for_url w (UFile [$"q"; $"a.R"]) = WFallback format_settings_default /\
  settings_for_url w (UUntitled $"1") = WFallback format_settings_default.
Proof.
  split; [apply disk_readable|]. split.
  - split.
    + intros w d [<-|[]] H. apply above_p in H. destruct H as [-> | ->]; [left; same|].
      right. split; [reflexivity|]. exists AIR_TOML. split; [left; reflexivity|]. left. reflexivity.
    + split; [apply disk_readable|]. split.
      * intros w d [<-|[]] H. apply above_p in H. left. destruct H as [-> | ->]; same.
      * split; [apply disk_readable|exact I].
  - vm_compute. repeat split.
Qed.

Example c30_example :
  let w := ws_run (from_workspace_folders fs0 [UFile [$"p"]]) session in
  sync_file_settings true w [UFile [$"p"; $"a.R"]; UUntitled $"1"; UFile [$"q"; $"b.R"]; UFile [$"p"; $"sub"; $"c.R"]]
  = Some [{| f_url := UFile [$"p"; $"a.R"]; f_indent_style := ISpace; f_indent_width := 8%N; f_line_width := 80%N |};
          {| f_url := UFile [$"p"; $"sub"; $"c.R"]; f_indent_style := ISpace; f_indent_width := 3%N; f_line_width := 80%N |}].
Proof. vm_compute. reflexivity. Qed.

(** Without the restriction to files in the open folder itself C31 is false: an
    air.toml above the open folder is used, but its changes, though reported, are
    never loaded. *)
Theorem c31_config_above_folder_refuted : exists fs fs' changes w f,
  In (UFile (toml [$"p"])) changes /\ readable fs [w] /\ readable fs' [w] /\
  settings_for_url (ws_run (from_workspace_folders fs [UFile w]) [(fs', FilesChanged changes)]) (UFile f) = WToml (with_width 4) /\
  settings_for_url (from_workspace_folders fs' [UFile w]) (UFile f) = WToml (with_width 8).
Proof.
  exists fs0, fs1, [UFile (toml [$"p"])], [$"p"; $"sub"], [$"p"; $"sub"; $"a.R"].
  split; [left; reflexivity|]. split; [apply disk_readable|]. split; [apply disk_readable|]. vm_compute. repeat split.
Qed.
Print Assumptions c31_config_above_folder_refuted.

(** An air.toml that is broken while the folder is open, and then repaired. *)
Definition unparsable (fs : file_system) : file_system :=
  {| fs_is_file := fs_is_file fs;
     fs_parse := fun p root => if path_eqb p (toml [$"p"]) then None else fs_parse fs p root |}.
Example c31_broken_later_example :
  let broken := (unparsable fs0, FilesChanged [UFile (toml [$"p"])]) in
  let repaired := (fs1, FilesChanged [UFile (toml [$"p"])]) in
  let run h := settings_for_url (ws_run (from_workspace_folders fs0 [UFile [$"p"]]) h) (UFile [$"p"; $"a.R"]) in
  watched fs0 [[$"p"]] [broken; repaired] /\
  run [] = WToml (with_width 4) /\ run [broken] = WFallback format_settings_default /\
  run [broken; repaired] = WToml (with_width 8).
Proof.
  split.
  - assert (forall fs, readable fs []) as R by (intros fs w d []).
    repeat split; try exact I; try apply R.
    all: intros w d [<-|[]] H; apply above_p in H; destruct H as [-> | ->]; [left; same|].
    all: right; split; [reflexivity|]; exists AIR_TOML; split; [left; reflexivity|left; reflexivity].
  - vm_compute. repeat split.
Qed.

(** Nor does a folder opened with a broken air.toml recover when the file is
    repaired. *)
Definition broken_disk : file_system :=
  {| fs_is_file := fs_is_file fs0; fs_parse := fun _ _ => None |}.
Theorem c31_broken_at_opening_refuted : exists w f,
  settings_for_url (ws_run (from_workspace_folders broken_disk [UFile w]) [(fs0, FilesChanged [UFile (toml w)])]) (UFile f)
    = WFallback format_settings_default /\
  settings_for_url (from_workspace_folders fs0 [UFile w]) (UFile f) = WToml (with_width 4).
Proof. exists [$"p"], [$"p"; $"a.R"]. vm_compute. repeat split. Qed.
Print Assumptions c31_broken_at_opening_refuted.

(** The nearest air.toml to a file, inside the open folder, does not govern it. *)
Theorem c31_nested_config_refuted : exists fs w f,
  nearest (config_of fs) f [$"p"; $"sub"] /\
  settings_in format_settings (config_of fs) (fs_parse fs) [$"p"; $"sub"] (with_width 3) /\
  settings_for_url (from_workspace_folders fs [UFile w]) (UFile f) = WToml (with_width 8).
Proof.
  exists fs2, [$"p"], [$"p"; $"sub"; $"a.R"]. split.
  - split; [exists [$"a.R"]; reflexivity|]. split; [vm_compute; discriminate|]. intros d' [r H] L.
    destruct d' as [|a [|b [|c [|]]]]; cbn in L; try (exfalso; repeat apply le_S_n in L; inversion L; fail); try discriminate.
    injection H as <- <- <- H. vm_compute. reflexivity.
  - split; [|vm_compute; reflexivity]. exists (toml [$"p"; $"sub"]). split; vm_compute; reflexivity.
Qed.
Print Assumptions c31_nested_config_refuted.

(** C30: when an air.toml is deleted, the settings of an open file change, but no
    notification is sent. *)
Theorem c30_deletion_not_synced_refuted : exists changes f,
  let w := from_workspace_folders fs0 [UFile [$"p"]] in
  let r := did_change_watched_files (disk_of []) true w changes [UFile f] in
  settings_for_url w (UFile f) = WToml (with_width 4) /\
  settings_for_url (fst r) (UFile f) = WFallback format_settings_default /\ snd r = None.
Proof. exists [UFile (toml [$"p"])], [$"p"; $"a.R"]. vm_compute. repeat split. Qed.
Print Assumptions c30_deletion_not_synced_refuted.
