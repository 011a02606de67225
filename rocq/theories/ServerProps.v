(** Property theorems: the conversation of the language server with its client. *)
From Coq Require Import List Bool NArith ZArith Lia String.
From Verif Require Import Text LineIndexModel SettingsModel ResolverModel ResolverSpec ResolverProofs DiscoverModel DiscoverSpec DiscoverProofs TextEditModel DocsModel DocsSpec DocsProofs ProtoEditsModel WorkspaceModel WorkspaceSpec ServerModel ServerSpec ServerProofs.
Import ListNotations.
Notation length := List.length.

(** C29: the server handles a prefix of the events; the responses it sends answer the
    requests of that prefix one by one, in order, each with a response of its kind.
    The prefix is everything, or ends with the first shutdown, or is cut by a panic. *)
Theorem c29_each_request_answered_in_order :
  forall (T : Type) (parse : text -> T) has_error windows print dissimilar url_of excluded format_range view h s s' outs st,
  let loop := main_loop T parse has_error windows print dissimilar url_of excluded format_range view in
  loop s h = (s', outs, st) ->
  exists pre post, h = pre ++ post /\ Forall2 answers (requests pre) (responses outs) /\
    match st with
    | Running => post = [] /\ Forall (fun em => ~ is_shutdown (snd em)) pre
    | Stopped => exists p em, pre = p ++ [em] /\ is_shutdown (snd em) /\ Forall (fun em => ~ is_shutdown (snd em)) p
    | Panicked => exists e m post', post = (e, m) :: post' /\
         handle_event T parse has_error windows print dissimilar url_of excluded format_range view e s' m = None /\
         Forall (fun em => ~ is_shutdown (snd em)) pre /\ loop s pre = (s', outs, Running)
    end.
Proof. intros. eapply loop_prefix. exact H. Qed.
Print Assumptions c29_each_request_answered_in_order.

(** One event panics only as: a second initialization; a document change that the
    document store cannot apply; a range request whose range cannot be converted. *)
Theorem c29_panics :
  forall (T : Type) (parse : text -> T) has_error windows print dissimilar url_of excluded format_range view e s m,
  handle_event T parse has_error windows print dissimilar url_of excluded format_range view e s m = None ->
  (is_initialize m /\ sv_log_tx T s = false) \/
  (exists ev, m = MDoc ev /\ doc_step T parse (sv_enc T s) (sv_docs T s) ev = None) \/
  (exists id u sp tab r d o x, m = MRequest id (QFormatRange u sp tab r) /\ sv_docs T s u = Some d /\ format_range d o x r = None).
Proof. intros. eapply event_panics. exact H. Qed.
Print Assumptions c29_panics.

(** A failing handler (it returned an error) leaves the loop running, and every
    document and the workspaces as they were; a failing opening has opened its own
    document. *)
Theorem c29_failure_contained :
  forall (T : Type) (parse : text -> T) has_error windows print dissimilar url_of excluded format_range view e s s' m outs c,
  handle_event T parse has_error windows print dissimilar url_of excluded format_range view e s m = Some (s', outs, false, c) ->
  c = Continue /\ sv_workspaces T s' = sv_workspaces T s /\ sv_enc T s' = sv_enc T s /\
  forall u, (forall v t, m <> MDoc (EvOpen u v t)) -> sv_docs T s' u = sv_docs T s u.
Proof. intros. eapply failure_contained. exact H. Qed.
Print Assumptions c29_failure_contained.

(** A whole session with a tidy editor (see C20): the server keeps running, answers
    every request, and has exactly the editor's documents, whatever requests,
    configuration, folder and file notifications are interleaved and however the
    client answers the server's own requests. *)
Theorem c29_session_in_step :
  forall (T : Type) (parse : text -> T) has_error windows print dissimilar url_of excluded format_range view e0 id folders (utf8 can : bool) rest ed,
  let enc := if utf8 then EUtf8 else EUtf16 in
  Forall (fun em => ~ is_initialize (snd em)) rest -> Forall (fun em => ~ is_shutdown (snd em)) rest ->
  editor_run enc no_editor (doc_events rest) ed ->
  (forall d o x r, format_range d o x r <> None) ->
  exists s outs,
    main_loop T parse has_error windows print dissimilar url_of excluded format_range view (server_new T)
      ((e0, MRequest id (QInitialize folders utf8 can)) :: rest) = (s, outs, Running) /\
    (exists tl, responses outs = (id, RInitialize enc) :: tl /\ Forall2 answers (requests rest) tl) /\
    forall u, match ed u with
              | Some (t, v) => exists d, sv_docs T s u = Some d /\ in_step parse enc d t v
              | None => sv_docs T s u = None
              end.
Proof. intros. apply session_in_step; assumption. Qed.
Print Assumptions c29_session_in_step.

(** A small server for the examples: trees are texts, formatting appends the width of
    the indentation and a line feed, every URL is a file of the root directory. *)
Definition demo_print (o : format_options) (t : text) : option text := Some (t ++ [(48 + o_indent_width o)%N; LF]).
Definition demo_diff (a b : text) : list chunk := [Delete a; Insert b].
Definition demo_url (u : text) : url := UFile [u].
Definition demo := main_loop text (fun t => t) (fun _ => false) false demo_print demo_diff demo_url (fun _ _ => false)
  (fun _ _ _ _ => Some NoEdits) (fun _ _ => None).
Definition demo_event := handle_event text (fun t => t) (fun _ => false) false demo_print demo_diff demo_url (fun _ _ => false)
  (fun _ _ _ _ => Some NoEdits) (fun _ _ => None).
Definition demo_env (l : list (path * N)) (order : list text) (ans : config_item -> json) : env :=
  {| e_fs := {| fs_is_file := fun p => existsb (fun e => path_eqb p (fst e)) l;
                fs_parse := fun _ _ => Some {| s_indent_style := ISpace; s_indent_width := 7%N; s_line_ending := s_line_ending format_settings_default;
                   s_line_width := 80%N; s_persistent_line_breaks := s_persistent_line_breaks format_settings_default;
                   s_assignment_style := s_assignment_style format_settings_default; s_exclude := None; s_default_exclude := true;
                   s_default_include := true; s_skip := None; s_table := None |} |};
     e_order := order; e_answer := fun items => Some (map ans items); e_register_ok := true |}.
Definition quiet := demo_env [] [] (fun _ => JNull).

Definition demo_session : list (env * message) :=
  [(quiet, MDoc (EvOpen $"a" 1%Z $"x")); (quiet, MRequest 2 (QFormat $"a" true 4%Z)); (quiet, MRequest 3 (QView $"a" 0));
   (quiet, MDoc (EvChange $"a" 2%Z [{| c_range := None; c_text := $"y" |}])); (quiet, MRequest 5 (QFormat $"missing" true 4%Z));
   (quiet, MRequest 4 (QFormatRange $"a" true 4%Z {| r_start := {| pos_line := 0; pos_char := 0 |}; r_end := {| pos_line := 0; pos_char := 0 |} |}))].
Example c29_example :
  (exists ed, editor_run EUtf16 no_editor (doc_events demo_session) ed) /\
  exists s outs, demo (server_new text) ((quiet, MRequest 1 (QInitialize [] false true)) :: demo_session) = (s, outs, Running) /\
    map fst (responses outs) = [1; 2; 3; 5; 4] /\
    map snd (responses outs) = [RInitialize EUtf16; RFormat (Some [{| te_range := {| r_start := {| pos_line := 0; pos_char := 0 |}; r_end := {| pos_line := 0; pos_char := 1 |} |}; te_text := $"x4" ++ [LF] |}]); RError; RError; RFormatRange None].
Proof.
  split.
  - eexists. cbn. apply EROpen; [repeat constructor; discriminate|]. eapply ERChange; [reflexivity|lia| |apply ERNil].
    eapply TCCons; [|apply TCNil]. constructor. repeat constructor; discriminate.
  - eexists. eexists. split; [reflexivity|]. split; vm_compute; reflexivity.
Qed.

(** After a shutdown nothing is answered. *)
Example c29_shutdown_example : exists s outs,
  demo (server_new text) [(quiet, MRequest 1 (QInitialize [] false true)); (quiet, MRequest 2 QShutdown); (quiet, MRequest 3 (QFormat $"a" true 4%Z))] = (s, outs, Stopped) /\
  responses outs = [(1, RInitialize EUtf16); (2, RShutdown)].
Proof. eexists. eexists. split; [reflexivity|]. vm_compute. reflexivity. Qed.

(** Without these hypotheses C29 is false: a second initialization is never answered
    and ends the server. *)
Theorem c29_second_initialize_refuted : exists h s outs,
  demo (server_new text) h = (s, outs, Panicked) /\ length (requests h) = 3 /\ length (responses outs) = 1.
Proof.
  exists [(quiet, MRequest 1 (QInitialize [] false true)); (quiet, MRequest 2 (QInitialize [] false true)); (quiet, MRequest 3 (QFormat $"a" true 4%Z))].
  eexists. eexists. split; [reflexivity|]. vm_compute. split; reflexivity.
Qed.
Print Assumptions c29_second_initialize_refuted.

(** C32: what is asked for: the diagnostics, three settings of each document in order,
    three global settings. *)
Theorem c32_request_layout : forall uris,
  config_items uris = map (fun s => {| ci_scope := None; ci_section := s |}) DIAGNOSTICS_SECTIONS ++
    flat_map (fun u => map (fun s => {| ci_scope := Some u; ci_section := s |}) [$"editor.insertSpaces"; $"editor.indentSize"; $"editor.tabSize"]) uris ++
    map (fun s => {| ci_scope := None; ci_section := s |}) [$"air.logLevel"; $"air.dependencyLogLevels"; $"air.syncFileSettingsWithClient"] /\
  length (config_items uris) = 1 + 3 * length uris + 3.
Proof. intro uris. split; [reflexivity|apply config_items_length]. Qed.
Print Assumptions c32_request_layout.

(** If the client answers each item, every document asked about gets exactly its own
    values, no other document changes, and the global setting gets its own value. *)
Theorem c32_each_gets_its_own :
  forall (T : Type) url_of e s uris ans s' outs ok,
  sv_can_ask T s = true -> answered e (config_items uris) ans ->
  (forall u, In u uris -> sv_docs T s u <> None) -> (forall u, In u uris -> own_settings ans u <> None) ->
  update_config T url_of e s uris = (s', outs, ok) ->
  (forall u, In u uris -> Some (sv_settings T s' u) = own_settings ans u) /\
  (forall u, ~ In u uris -> sv_settings T s' u = sv_settings T s u) /\
  (sv_log T s = true -> forall b, global_sync ans = Some b -> ok = true /\ sv_sync T s' = b) /\
  (sv_log T s = false \/ global_sync ans = None -> ok = false /\ sv_sync T s' = sv_sync T s) /\
  sv_docs T s' = sv_docs T s /\ sv_workspaces T s' = sv_workspaces T s /\ sv_enc T s' = sv_enc T s.
Proof. intros. eapply config_each_own; eassumption. Qed.
Print Assumptions c32_each_gets_its_own.

(** A failed request or a reply of the wrong length changes nothing. *)
Theorem c32_bad_reply_changes_nothing : forall (T : Type) url_of e s uris,
  sv_can_ask T s = true ->
  match e_answer e (config_items uris) with None => True | Some l => length l <> 1 + 3 * length uris + 3 end ->
  update_config T url_of e s uris = (s, [OAsk (config_items uris)], false).
Proof. intros. apply config_bad_reply; assumption. Qed.
Print Assumptions c32_bad_reply_changes_nothing.

(** A value of the wrong type for one document: the documents asked about earlier get
    their values, all others keep theirs, and the global setting is not read. *)
Theorem c32_stops_at_bad_value : forall (T : Type) url_of e s pre u post ans,
  sv_can_ask T s = true -> answered e (config_items (pre ++ u :: post)) ans ->
  (forall v, In v pre -> sv_docs T s v <> None) -> (forall v, In v pre -> own_settings ans v <> None) ->
  own_settings ans u = None ->
  exists f, update_config T url_of e s (pre ++ u :: post) = (with_settings T s f, [OAsk (config_items (pre ++ u :: post))], false) /\
    (forall v, In v pre -> Some (f v) = own_settings ans v) /\ (forall v, ~ In v pre -> f v = sv_settings T s v).
Proof. intros. apply config_stops; assumption. Qed.
Print Assumptions c32_stops_at_bad_value.

Definition demo_answer (i : config_item) : json :=
  match ci_scope i with
  | None => if text_eqb (ci_section i) $"air.syncFileSettingsWithClient" then JBool true else JNull
  | Some u =>
    if text_eqb (ci_section i) $"editor.insertSpaces" then JBool (text_eqb u $"a")
    else if text_eqb (ci_section i) $"editor.indentSize" then (if text_eqb u $"b" then JStr $"tabSize" else JNat 3)
    else (if text_eqb u $"c" then JBool true else JNat 8)
  end.
Definition opened (us : list text) : list (env * message) := map (fun u => (quiet, MDoc (EvOpen u 1%Z $"x"))) us.
Definition demo_state (us : list text) : server text :=
  fst (fst (demo (server_new text) ((quiet, MRequest 1 (QInitialize [] false true)) :: opened us))).
Definition settings_of (b : bool) (n : N) : document_settings :=
  {| d_indent_style := Some (if b then ISpace else ITab); d_indent_width := Some n; d_line_width := None |}.

Example c32_example :
  let e := demo_env [] [$"b"; $"a"] demo_answer in
  let s := demo_state [$"a"; $"b"] in
  sv_can_ask text s = true /\ sv_log text s = true /\ answered e (config_items [$"b"; $"a"]) demo_answer /\
  own_settings demo_answer $"a" = Some (settings_of true 3) /\ own_settings demo_answer $"b" = Some (settings_of false 8) /\
  global_sync demo_answer = Some true /\
  exists s' outs, demo_event e s MConfiguration = Some (s', outs, true, Continue) /\
    sv_settings text s' $"a" = settings_of true 3 /\ sv_settings text s' $"b" = settings_of false 8 /\ sv_sync text s' = true.
Proof.
  vm_compute. do 6 (split; [reflexivity|]). eexists. eexists. split; [reflexivity|]. repeat split.
Qed.

(** "All or nothing" is false: a bad value for the second document leaves the first
    one changed though the update failed. *)
Theorem c32_all_or_nothing_refuted : exists e (s s' : server text) outs u,
  update_config text demo_url e s [$"a"; $"c"] = (s', outs, false) /\ sv_settings text s' u <> sv_settings text s u.
Proof.
  exists (demo_env [] [$"a"; $"c"] demo_answer), (demo_state [$"a"; $"c"]). eexists. eexists. exists $"a".
  split; [reflexivity|]. vm_compute. discriminate.
Qed.
Print Assumptions c32_all_or_nothing_refuted.

(** C49: whatever happened before, a formatting request for an open document is
    served with the settings of the governing air.toml; without one, with the default
    settings and the indentation sent in this very request. *)
Theorem c49_formatting_options :
  forall (T : Type) (parse : text -> T) has_error windows print dissimilar url_of excluded format_range view h s s' outs e id u d sp tab outs' ok c,
  main_loop T parse has_error windows print dissimilar url_of excluded format_range view (server_new T) h = (s, outs, Running) ->
  sv_docs T s u = Some d ->
  handle_event T parse has_error windows print dissimilar url_of excluded format_range view e s (MRequest id (QFormat u sp tab)) = Some (s', outs', ok, c) ->
  let o := match settings_for_url (sv_workspaces T s) (url_of u) with
           | WToml st => to_format_options windows st (d_contents d)
           | WFallback _ => requested_options (to_format_options windows format_settings_default (d_contents d)) sp tab
           end in
  exists x, outs' = [OResponse id (match document_formatting T has_error (print o) dissimilar x (is_notebook (url_of u)) d with
                                  | Edits es => RFormat (Some es) | NoEdits => RFormat None | Failed => RError end)] /\
    (x = true <-> exists p, url_of u = UFile p /\
       match settings_for_url (sv_workspaces T s) (url_of u) with WToml st => excluded st p = true | WFallback _ => excluded format_settings_default p = true end).
Proof. intros. eapply format_request; eassumption. Qed.
Print Assumptions c49_formatting_options.

(** The same document formatted with and without an air.toml: the editor's answer (3)
    to the configuration request and the request's own tab size (4 or 40, out of
    range). *)
Definition first_text (outs : list output) : option text :=
  match responses outs with (_, RFormat (Some (x :: _))) :: _ => Some (te_text x) | _ => None end.
Example c49_example :
  let e := demo_env [] [$"a"] demo_answer in
  let with_toml := demo_env [([AIR_TOML], 1%N)] [$"a"] demo_answer in
  let run (e0 : env) (tab : Z) :=
    let '(s, _, _) := demo (server_new text) [(e0, MRequest 1 (QInitialize [UFile []] false true)); (e, MDoc (EvOpen $"a" 1%Z $"x"))] in
    match demo_event e s (MRequest 2 (QFormat $"a" true tab)) with Some (_, outs, _, _) => first_text outs | None => None end in
  run e 4%Z = Some ($"x4" ++ [LF]) /\ run e 40%Z = Some ($"x2" ++ [LF]) /\ run with_toml 4%Z = Some ($"x7" ++ [LF]).
Proof. vm_compute. repeat split. Qed.
