(** Specification of the server's conversation with its client. *)
From Coq Require Import List NArith ZArith Bool Arith String.
From Verif Require Import Text LineIndexModel SettingsModel DocsModel WorkspaceModel ServerModel.
Import ListNotations.

(** Requests among the messages, responses among what is sent, in order. *)
Definition requests (h : list (env * message)) : list (nat * request) :=
  flat_map (fun em => match snd em with MRequest id q => [(id, q)] | _ => [] end) h.
Definition responses (outs : list output) : list (nat * response) :=
  flat_map (fun o => match o with OResponse id r => [(id, r)] | _ => [] end) outs.

(** A response of the kind that belongs to the request, or an error. *)
Definition answers (q : nat * request) (r : nat * response) : Prop :=
  fst q = fst r /\
  match snd q, snd r with
  | QInitialize _ _ _, RInitialize _ => True
  | QShutdown, RShutdown => True
  | QFormat _ _ _, (RFormat _ | RError) => True
  | QFormatRange _ _ _ _, (RFormatRange _ | RError) => True
  | QView _ _, (RView _ | RError) => True
  | _, _ => False
  end.

(** The document notifications among the messages. *)
Definition doc_events (h : list (env * message)) : list doc_event :=
  flat_map (fun em => match snd em with MDoc ev => [ev] | _ => [] end) h.

Definition is_shutdown (m : message) : Prop := exists id, m = MRequest id QShutdown.
Definition is_initialize (m : message) : Prop := exists id f u c, m = MRequest id (QInitialize f u c).

(** The client's reply to this request answers item by item. *)
Definition answered (e : env) (items : list config_item) (ans : config_item -> json) : Prop :=
  e_answer e items = Some (map ans items).

(** Reading of one document's editor settings; [None]: a value has the wrong type. *)
Definition width_or_default (n : Z) : N := if ((1 <=? n) && (n <=? 24))%Z then Z.to_N n else 2%N.
Definition read_document (spaces size tab : json) : option document_settings :=
  let typed := match spaces with JNull | JBool _ => true | _ => false end &&
               match size with JNull | JNat _ | JStr _ => true | _ => false end &&
               match tab with JNull | JNat _ => true | _ => false end in
  let make (b : bool) (n : N) :=
    {| d_indent_style := Some (if b then ISpace else ITab); d_indent_width := Some n; d_line_width := None |} in
  if negb typed then None
  else Some match spaces, size, tab with
            | JBool b, JNat n, JNat _ => make b (width_or_default n)
            | JBool b, JStr t, JNat m => make b (if text_eqb t $"tabSize" then width_or_default m else 2%N)
            | _, _, _ => {| d_indent_style := None; d_indent_width := None; d_line_width := None |}
            end.
Definition own_settings (ans : config_item -> json) (u : text) : option document_settings :=
  let v section := ans {| ci_scope := Some u; ci_section := section |} in
  read_document (v $"editor.insertSpaces") (v $"editor.indentSize") (v $"editor.tabSize").

(** Reading of the global settings: whether synchronisation is on. *)
Definition read_global (level deps sync : json) : option bool :=
  match level, deps, sync with
  | (JNull | JStr _), (JNull | JStr _), (JNull | JBool _) =>
    let known := match level with
                 | JStr t => text_eqb t $"error" || text_eqb t $"warn" || text_eqb t $"info" || text_eqb t $"debug" || text_eqb t $"trace"
                 | _ => true
                 end in
    if known then Some (match sync with JBool b => b | _ => false end) else None
  | _, _, _ => None
  end.
Definition global_sync (ans : config_item -> json) : option bool :=
  let v section := ans {| ci_scope := None; ci_section := section |} in
  read_global (v $"air.logLevel") (v $"air.dependencyLogLevels") (v $"air.syncFileSettingsWithClient").

(** Format options with the indentation of a formatting request. *)
Definition requested_options (o : format_options) (insert_spaces : bool) (tab_size : Z) : format_options :=
  {| o_indent_style := if insert_spaces then ISpace else ITab;
     o_indent_width := width_or_default tab_size;
     o_line_ending := o_line_ending o; o_line_width := o_line_width o;
     o_persistent_line_breaks := o_persistent_line_breaks o; o_assignment_style := o_assignment_style o;
     o_skip := o_skip o; o_table := o_table o |}.
