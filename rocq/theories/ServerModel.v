(** Model of the server's main loop (crates/lsp/src/main_loop.rs:270-400, [main_loop],
    [handle_event], [respond]) with the handlers of crates/lsp/src/handlers_state.rs
    that are not in DocsModel or WorkspaceModel. *)
From Coq Require Import List NArith ZArith Bool Arith String.
From Verif Require Import Text LineEndingModel LineIndexModel ResolverModel SettingsModel DocsModel
  TextEditModel ProtoEditsModel WorkspaceModel.
Import ListNotations.

(** * Configuration requests *)

(** [serde_json::Value], as far as it is told apart: [JOther] stands for negative or
    fractional numbers, numbers beyond [usize], arrays and objects. *)
Inductive json := JNull | JBool (b : bool) | JStr (t : text) | JNat (n : Z) | JOther.

(** [lsp_types::ConfigurationItem]; the scope is a document or none. *)
Record config_item := { ci_scope : option text; ci_section : text }.

(** settings_vsc.rs:66-75, 97-104, 106-115: the sections asked for, in field order. *)
Definition DIAGNOSTICS_SECTIONS : list text := [$"positron.r.diagnostics.enable"].
Definition DOCUMENT_SECTIONS : list text := [$"editor.insertSpaces"; $"editor.indentSize"; $"editor.tabSize"].
Definition GLOBAL_SECTIONS : list text := [$"air.logLevel"; $"air.dependencyLogLevels"; $"air.syncFileSettingsWithClient"].

(** handlers_state.rs:273-303: the items of the request. *)
Definition config_items (uris : list text) : list config_item :=
  map (fun s => {| ci_scope := None; ci_section := s |}) DIAGNOSTICS_SECTIONS ++
  flat_map (fun u => map (fun s => {| ci_scope := Some u; ci_section := s |}) DOCUMENT_SECTIONS) uris ++
  map (fun s => {| ci_scope := None; ci_section := s |}) GLOBAL_SECTIONS.

(** [serde_json::from_value] on the fields of [VscDocumentSettings] and
    [VscGlobalSettings]; [None] is a type error. *)
Definition decode_bool (j : json) : option (option bool) :=
  match j with JNull => Some None | JBool b => Some (Some b) | _ => None end.
Definition decode_usize (j : json) : option (option Z) :=
  match j with JNull => Some None | JNat n => Some (Some n) | _ => None end.
Definition decode_indent_size (j : json) : option (option vsc_indent_size) :=
  match j with
  | JNull => Some None
  | JStr t => Some (Some (VAlias t))
  | JNat n => Some (Some (VSize n))
  | _ => None
  end.
Definition decode_string (j : json) : option (option text) :=
  match j with JNull => Some None | JStr t => Some (Some t) | _ => None end.
(** logging.rs:349-358. *)
Definition decode_log_level (j : json) : option (option text) :=
  match j with
  | JNull => Some None
  | JStr t => if existsb (text_eqb t) [$"error"; $"warn"; $"info"; $"debug"; $"trace"] then Some (Some t) else None
  | _ => None
  end.

(** handlers_state.rs:380-393, one document's values. *)
Definition decode_document (spaces size tab : json) : option document_settings :=
  match decode_bool spaces, decode_indent_size size, decode_usize tab with
  | Some a, Some b, Some c =>
    Some (document_settings_from_vsc {| v_insert_spaces := a; v_indent_size := b; v_tab_size := c |})
  | _, _, _ => None
  end.

(** handlers_state.rs:410-425 and settings_vsc.rs:52-60: the new sync setting. *)
Definition decode_global (level deps sync : json) : option bool :=
  match decode_log_level level, decode_string deps, decode_bool sync with
  | Some _, Some _, Some s => Some (unwrap_or s false)
  | _, _, _ => None
  end.

(** * The server *)

Section Server.
  Variable T : Type.                               (* syntax trees *)
  Variable parse : text -> T.
  Variable has_error : T -> bool.
  Variable windows : bool.
  Variable print : format_options -> text -> option text.   (* formatter and printer *)
  Variable dissimilar : text -> text -> list chunk.         (* diff library *)
  Variable url_of : text -> url.                   (* reading of a URL string *)
  Variable excluded : format_settings -> path -> bool.      (* file_patterns.rs:11-25 *)
  (** [document_range_formatting] once the document is found; [None] is a panic. *)
  Variable format_range : document T -> format_options -> bool -> lsp_range -> option reply.
  (** handlers_ext.rs:25-68, [view_file] once the document is found; [None] is an error. *)
  Variable view : document T -> nat -> option text.

  (** main_loop.rs:120-175 and state.rs.  Simplification: [Document::settings] is kept in
      a map of its own, [sv_settings], meaningful for open documents. *)
  Record server := {
    sv_docs : documents T;
    sv_settings : text -> document_settings;
    sv_workspaces : workspaces;
    sv_enc : encoding;
    sv_can_ask : bool;      (* [capabilities.request_configuration] *)
    sv_log : bool;          (* [log_state] is present *)
    sv_log_tx : bool;       (* [log_tx] not taken yet *)
    sv_sync : bool          (* [settings.sync_file_settings_with_client] *)
  }.

  Definition with_docs (s : server) (m : documents T) : server :=
    {| sv_docs := m; sv_settings := sv_settings s; sv_workspaces := sv_workspaces s; sv_enc := sv_enc s;
       sv_can_ask := sv_can_ask s; sv_log := sv_log s; sv_log_tx := sv_log_tx s; sv_sync := sv_sync s |}.
  Definition with_settings (s : server) (f : text -> document_settings) : server :=
    {| sv_docs := sv_docs s; sv_settings := f; sv_workspaces := sv_workspaces s; sv_enc := sv_enc s;
       sv_can_ask := sv_can_ask s; sv_log := sv_log s; sv_log_tx := sv_log_tx s; sv_sync := sv_sync s |}.
  Definition with_workspaces (s : server) (w : workspaces) : server :=
    {| sv_docs := sv_docs s; sv_settings := sv_settings s; sv_workspaces := w; sv_enc := sv_enc s;
       sv_can_ask := sv_can_ask s; sv_log := sv_log s; sv_log_tx := sv_log_tx s; sv_sync := sv_sync s |}.
  Definition with_sync (s : server) (b : bool) : server :=
    {| sv_docs := sv_docs s; sv_settings := sv_settings s; sv_workspaces := sv_workspaces s; sv_enc := sv_enc s;
       sv_can_ask := sv_can_ask s; sv_log := sv_log s; sv_log_tx := sv_log_tx s; sv_sync := b |}.

  (** main_loop.rs:176-190, 240-262: a new server. *)
  Definition server_new : server :=
    {| sv_docs := fun _ => None; sv_settings := fun _ => document_settings_default;
       sv_workspaces := resolver_new (resolver_new format_settings_default); sv_enc := EUtf16;
       sv_can_ask := false; sv_log := false; sv_log_tx := true; sv_sync := false |}.

  Definition settings_set (f : text -> document_settings) (u : text) (d : document_settings) : text -> document_settings :=
    fun v => if text_eqb v u then d else f v.

  (** Requests carry an identifier: the response channel. *)
  Inductive request :=
  | QInitialize (folders : list url) (utf8 can_ask : bool)
  | QShutdown
  | QFormat (uri : text) (insert_spaces : bool) (tab_size : Z)
  | QFormatRange (uri : text) (insert_spaces : bool) (tab_size : Z) (r : lsp_range)
  | QView (uri : text) (kind : nat).

  Inductive response :=
  | RInitialize (enc : encoding)
  | RShutdown
  | RFormat (r : option (list text_edit))
  | RFormatRange (r : option (list text_edit))
  | RView (t : text)
  | RError.

  Inductive message :=
  | MInitialized
  | MFolders (added removed : list url)
  | MConfiguration
  | MWatched (changes : list url)
  | MDoc (ev : doc_event)
  | MSave (uri : text)
  | MKernel
  | MRequest (id : nat) (q : request).

  (** What the server sends to the client. *)
  Inductive output :=
  | OResponse (id : nat) (r : response)
  | OAsk (items : list config_item)
  | OSync (files : list file_settings).

  (** The surroundings of one event: the file system, the order in which the hash map
      of documents is traversed, the client's answer to a configuration request
      ([None]: the request fails) and to the registration of capabilities. *)
  Record env := {
    e_fs : file_system;
    e_order : list text;
    e_answer : list config_item -> option (list json);
    e_register_ok : bool
  }.

  (** [lsp_state.sync_file_settings(uris)]. *)
  Definition send_sync (s : server) (uris : list text) : list output :=
    match sync_file_settings (sv_sync s) (sv_workspaces s) (map url_of uris) with
    | None => []
    | Some l => [OSync l]
    end.

  (** handlers_state.rs:372-400, [update_documents_config]: the new settings, and
      whether it succeeded (an error stops it half way). *)
  Fixpoint update_documents_config (docs : documents T) (f : text -> document_settings)
      (uris : list text) (values : list json) : (text -> document_settings) * bool :=
    match uris with
    | [] => (f, true)
    | u :: uris' =>
      match values with
      | a :: b :: c :: values' =>
        match decode_document a b c with
        | None => (f, false)
        | Some d =>
          match docs u with
          | None => (f, false)
          | Some _ => update_documents_config docs (settings_set f u d) uris' values'
          end
        end
      | _ => (f, false)
      end
    end.

  (** handlers_state.rs:402-432, [update_global_config]. *)
  Definition update_global_config (e : env) (s : server) (values : list json) : server * list output * bool :=
    if negb (sv_log s) then (s, [], false)
    else
      match values with
      | [a; b; c] =>
        match decode_global a b c with
        | None => (s, [], false)
        | Some sync =>
          let s' := with_sync s sync in
          (s', if negb (sv_sync s) && sync then send_sync s' (e_order e) else [], true)
        end
      | _ => (s, [], false)
      end.

  (** handlers_state.rs:263-344, [update_config]. *)
  Definition update_config (e : env) (s : server) (uris : list text) : server * list output * bool :=
    if negb (sv_can_ask s) then (s, [], true)
    else
      let items := config_items uris in
      match e_answer e items with
      | None => (s, [OAsk items], false)
      | Some configs =>
        let n_diagnostics := List.length DIAGNOSTICS_SECTIONS in
        let n_document := List.length DOCUMENT_SECTIONS * List.length uris in
        let n_global := List.length GLOBAL_SECTIONS in
        if negb (List.length configs =? n_diagnostics + n_document + n_global) then (s, [OAsk items], false)
        else
          let configs := skipn n_diagnostics configs in
          let (f, ok) := update_documents_config (sv_docs s) (sv_settings s) uris (firstn n_document configs) in
          let s := with_settings s f in
          if negb ok then (s, [OAsk items], false)
          else
            let '(s, outs, ok) := update_global_config e s (firstn n_global (skipn n_document configs)) in
            (s, OAsk items :: outs, ok)
      end.

  (** handlers_state.rs:133-185: the document notifications ([None] is a panic). *)
  Definition handle_doc (e : env) (s : server) (ev : doc_event) : option (server * list output * bool) :=
    match doc_step T parse (sv_enc s) (sv_docs s) ev with
    | None => None
    | Some (m, ok) =>
      let s := with_docs s m in
      match ev with
      | EvOpen u _ _ =>
        let s := with_settings s (settings_set (sv_settings s) u document_settings_default) in
        let '(s, outs, ok) := update_config e s [u] in
        Some (if ok then (s, outs ++ send_sync s [u], true) else (s, outs, false))
      | _ => Some (s, [], ok)
      end
    end.

  (** handlers_state.rs:240-261, [did_change_formatting_options]. *)
  Definition did_change_formatting_options (s : server) (u : text) (insert_spaces : bool) (tab_size : Z) : server :=
    match sv_docs s u with
    | None => s
    | Some _ =>
      with_settings s (settings_set (sv_settings s) u
        {| d_indent_style := Some (indent_style_from_vsc insert_spaces);
           d_indent_width := Some (indent_width_from_usize tab_size);
           d_line_width := d_line_width (sv_settings s u) |})
    end.

  (** handlers_format.rs:24-38 and 82-96. *)
  Definition is_excluded (s : server) (u : text) : bool :=
    match url_of u with
    | UFile p => excluded (match settings_for_url (sv_workspaces s) (url_of u) with WToml st => st | WFallback st => st end) p
    | _ => false
    end.

  Definition options_for (s : server) (u : text) (d : document T) : format_options :=
    workspace_to_format_options windows (settings_for_url (sv_workspaces s) (url_of u)) (d_contents d) (sv_settings s u).

  Definition is_notebook (u : url) : bool := match u with UNotebookCell _ => true | _ => false end.

  (** handlers_format.rs:14-69. *)
  Definition handle_format (s : server) (u : text) : response :=
    match sv_docs s u with
    | None => RError
    | Some d =>
      match document_formatting T has_error (print (options_for s u d)) dissimilar (is_excluded s u) (is_notebook (url_of u)) d with
      | Edits es => RFormat (Some es)
      | NoEdits => RFormat None
      | Failed => RError
      end
    end.

  (** handlers_format.rs:71-165. *)
  Definition handle_format_range (s : server) (u : text) (r : lsp_range) : option response :=
    match sv_docs s u with
    | None => Some RError
    | Some d =>
      match format_range d (options_for s u d) (is_excluded s u) r with
      | None => None
      | Some (Edits es) => Some (RFormatRange (Some es))
      | Some NoEdits => Some (RFormatRange None)
      | Some Failed => Some RError
      end
    end.

  (** handlers_state.rs:65-131, [initialize]. *)
  Definition initialize (e : env) (s : server) (folders : list url) (utf8 can_ask : bool) : server :=
    {| sv_docs := sv_docs s; sv_settings := sv_settings s;
       sv_workspaces := from_workspace_folders (e_fs e) folders;
       sv_enc := if utf8 then EUtf8 else EUtf16;
       sv_can_ask := can_ask; sv_log := true; sv_log_tx := false; sv_sync := sv_sync s |}.

  Inductive control := Continue | Break.

  (** [respond] sends the response; an error response also makes the event fail. *)
  Definition is_error (r : response) : bool := match r with RError => true | _ => false end.

  (** main_loop.rs:318-385, [handle_event]: [None] is a panic; otherwise the new state,
      what was sent, whether the handler succeeded, and the loop control. *)
  Definition handle_event (e : env) (s : server) (m : message) : option (server * list output * bool * control) :=
    match m with
    | MInitialized => Some (s, [], e_register_ok e, Continue)
    | MFolders added removed =>
      Some (with_workspaces s (did_change_workspace_folders (e_fs e) (sv_workspaces s) added removed), [], true, Continue)
    | MConfiguration =>
      let '(s, outs, ok) := update_config e s (e_order e) in Some (s, outs, ok, Continue)
    | MWatched changes =>
      let (w, sync) := did_change_watched_files (e_fs e) (sv_sync s) (sv_workspaces s) changes (map url_of (e_order e)) in
      Some (with_workspaces s w, match sync with None => [] | Some l => [OSync l] end, true, Continue)
    | MDoc ev =>
      match handle_doc e s ev with
      | None => None
      | Some (s, outs, ok) => Some (s, outs, ok, Continue)
      end
    | MSave _ | MKernel => Some (s, [], true, Continue)
    | MRequest id (QInitialize folders utf8 can_ask) =>
      if negb (sv_log_tx s) then None
      else
        let s := initialize e s folders utf8 can_ask in
        Some (s, [OResponse id (RInitialize (sv_enc s))], true, Continue)
    | MRequest id QShutdown => Some (s, [OResponse id RShutdown], true, Break)
    | MRequest id (QFormat u sp tab) =>
      let s := did_change_formatting_options s u sp tab in
      let r := handle_format s u in
      Some (s, [OResponse id r], negb (is_error r), Continue)
    | MRequest id (QFormatRange u sp tab range) =>
      let s := did_change_formatting_options s u sp tab in
      match handle_format_range s u range with
      | None => None
      | Some r => Some (s, [OResponse id r], negb (is_error r), Continue)
      end
    | MRequest id (QView u kind) =>
      let r := match sv_docs s u with
               | None => RError
               | Some d => match view d kind with None => RError | Some t => RView t end
               end in
      Some (s, [OResponse id r], negb (is_error r), Continue)
    end.

  Inductive status := Running | Stopped | Panicked.

  (** main_loop.rs:270-300, [main_loop], on a finite sequence of events: an error is
      only logged. *)
  Fixpoint main_loop (s : server) (h : list (env * message)) : server * list output * status :=
    match h with
    | [] => (s, [], Running)
    | (e, m) :: r =>
      match handle_event e s m with
      | None => (s, [], Panicked)
      | Some (s1, outs, _, Break) => (s1, outs, Stopped)
      | Some (s1, outs, _, Continue) =>
        let '(s2, outs2, st) := main_loop s1 r in (s2, outs ++ outs2, st)
      end
    end.
End Server.
