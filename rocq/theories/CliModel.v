(** Model of [air format]: crates/air/src/commands/format.rs, format/paths.rs,
    format/stdin.rs, crates/air/src/{main,status}.rs and
    crates/workspace/src/format.rs. *)
From Coq Require Import List Arith Bool NArith Permutation.
From Verif Require Import Text ResolverModel ResolverSpec DiscoverModel WalkModel.
Import ListNotations.

(** status.rs:4-11. *)
Inductive exit_status := Success | Failure | Error.

(** workspace/format.rs:7-23. *)
Inductive format_result := FChanged (t : text) | FUnchanged | FParseError | FFormatError.

(** File contents as seen by [read_to_string]: [None] is any read error (missing
    file, permissions, invalid UTF-8). *)
Definition disk := path -> option text.
Definition disk_set (d : disk) (p : path) (t : option text) : disk :=
  fun q => if path_eqb q p then t else d q.

(** The primitive disk effects of [std::fs::write]: create-or-truncate, then fill. *)
Inductive disk_op := Truncate (p : path) | Fill (p : path) (t : text).
Definition apply_op (d : disk) (o : disk_op) : disk :=
  match o with
  | Truncate p => disk_set d p (Some [])
  | Fill p t => disk_set d p (Some t)
  end.
Definition apply_ops (d : disk) (l : list disk_op) : disk := fold_left apply_op l d.

(** How writing a given path turns out (oracle): success, failure to open, or
    failure after part of the text was written. *)
Inductive write_result := WOk | WOpenErr | WFillErr (part : text).

Inductive path_error := EFormat (p : path) | ERead (p : path) | EWrite (p : path) | EIgnore (p : path).

(** [Itertools::sorted_unstable] on paths: insertion sort stands for any sort, as
    equal paths are indistinguishable. *)
Fixpoint insert_path (p : path) (l : list path) : list path :=
  match l with
  | [] => [p]
  | q :: r => match path_cmp p q with Gt => q :: insert_path p r | _ => p :: l end
  end.
Definition sort_paths (l : list path) : list path := fold_right insert_path [] l.

Section Cli.
  Variables S O : Type.
  (** Oracles: the parser's verdict, the formatter ([format_node] and [print]),
      and [FormatSettings::to_format_options]. *)
  Variable parse_ok : text -> bool.
  Variable print : O -> text -> option text.
  Variable options_of : S -> text -> O.

  (** workspace/format.rs:41-84, [format_source] with [format_source_with_parse]. *)
  Definition format_source (src : text) (o : O) : format_result :=
    if negb (parse_ok src) then FParseError
    else
      match print o src with
      | None => FFormatError
      | Some out =>
        if Nat.eqb (blen src) (blen out) && text_eqb src out then FUnchanged else FChanged out
      end.

  Section Run.
    Variable settings_for : path -> S.
    Variable write_outcome : path -> write_result.

    (** paths.rs:150-166, [format_path]. *)
    Definition format_path (d : disk) (p : path) : format_result + path_error :=
      match d p with
      | None => inr (ERead p)
      | Some old =>
        match format_source old (options_of (settings_for p) old) with
        | FParseError | FFormatError => inr (EFormat p)
        | r => inl r
        end
      end.

    (** paths.rs:170-175, [write_path]: performed effects and possible error. *)
    Definition write_path (p : path) (r : format_result) : list disk_op * option path_error :=
      match r with
      | FChanged t =>
        match write_outcome p with
        | WOk => ([Truncate p; Fill p t], None)
        | WOpenErr => ([], Some (EWrite p))
        | WFillErr part => ([Truncate p; Fill p part], Some (EWrite p))
        end
      | _ => ([], None)
      end.

    (** One iteration of paths.rs:98-122. *)
    Definition write_one (d : disk) (f : found) : list disk_op * list path_error :=
      match f with
      | FErr p => ([], [EIgnore p])
      | FOk p =>
        match format_path d p with
        | inr e => ([], [e])
        | inl r => let (ops, e) := write_path p r in (ops, match e with Some e => [e] | None => [] end)
        end
      end.

    (** paths.rs:98-122, [format_paths_write]: effects, in order, and errors. *)
    Fixpoint format_paths_write (d : disk) (l : list found) : list disk_op * list path_error :=
      match l with
      | [] => ([], [])
      | f :: r =>
        let (ops, es) := write_one d f in
        let (ops', es') := format_paths_write (apply_ops d ops) r in
        (ops ++ ops', es ++ es')
      end.

    (** One iteration of paths.rs:124-148 with [check_path] (178-184). *)
    Definition check_one (d : disk) (f : found) : list path * list path_error :=
      match f with
      | FErr p => ([], [EIgnore p])
      | FOk p =>
        match format_path d p with
        | inr e => ([], [e])
        | inl (FChanged _) => ([p], [])
        | inl _ => ([], [])
        end
      end.

    (** paths.rs:124-148, [format_paths_check]. *)
    Definition format_paths_check (d : disk) (l : list found) : list path * list path_error :=
      (flat_map (fun f => fst (check_one d f)) l, flat_map (fun f => snd (check_one d f)) l).

    (** What a run does: exit status, disk effects, reported paths, logged errors. *)
    Record run_result := {
      r_status : exit_status;
      r_ops : list disk_op;
      r_reported : list path;
      r_errors : list path_error
    }.

    (** paths.rs:53-84, after settings and files are known. *)
    Definition format_files (check : bool) (d : disk) (files : list found) : run_result :=
      if check then
        let (changed, errors) := format_paths_check d files in
        {| r_status :=
             match errors with
             | [] => match changed with [] => Success | _ => Failure end
             | _ => Error
             end;
           r_ops := []; r_reported := sort_paths changed; r_errors := errors |}
      else
        let (ops, errors) := format_paths_write d files in
        {| r_status := match errors with [] => Success | _ => Error end;
           r_ops := ops; r_reported := []; r_errors := errors |}.
  End Run.

  (** Result of a command; [None] in [settings discovery] propagates through [?] to
      main.rs:8-30, which prints the cause and exits with [Error]. *)
  Definition hard_error : run_result :=
    {| r_status := Error; r_ops := []; r_reported := []; r_errors := [] |}.
End Cli.
Arguments format_source {O}. Arguments format_path {S O}. Arguments write_one {S O}.
Arguments format_paths_write {S O}. Arguments check_one {S O}. Arguments format_paths_check {S O}.
Arguments format_files {S O}.

Section Command.
  Variables S O : Type.
  Variable parse_ok : text -> bool.
  Variable print : O -> text -> option text.
  Variable options_of : S -> text -> O.
  Variable user_exclude : S -> option patterns.
  Variables default_exclude default_include : S -> bool.
  Variable fb : S.                         (* Settings::default() *)
  (** The file system as seen by discovery. *)
  Variable is_file : path -> bool.
  Variable parse_settings : path -> path -> option S.
  Variables AIR_TOML DOT_AIR_TOML : text.
  Variable node_of : path -> node.
  Variable dropped : path -> path -> bool -> bool.
  Variable write_outcome : path -> write_result.

  Definition resolver_for (paths : list path) : option (resolver S) :=
    match discover_settings S is_file parse_settings AIR_TOML DOT_AIR_TOML paths with
    | None => None
    | Some found => Some (load_resolver S fb found)
    end.

  (** format.rs:15-33 and paths.rs:37-85 for [air format <paths>]: the possible
      results over all schedules of the walk, with [k] worker threads. *)
  Inductive format_command (check force : bool) (k : nat) (d : disk) (paths : list path)
      : run_result -> Prop :=
  | CmdBroken :
      resolver_for paths = None ->
      format_command check force k d paths hard_error
  | CmdRun : forall r fin order,
      resolver_for paths = Some r ->
      let emode := if force then ExNothing else ExMatched in
      let imode := if force then InEverything else InMatched in
      psteps S user_exclude default_exclude default_include (resolve_or_fallback r) dropped emode imode
        {| pending := start_works (map (fun p => (p, node_of p)) paths); threads := repeat [] k |} fin ->
      pending fin = [] ->
      Permutation order (threads fin) ->
      format_command check force k d paths
        (format_files parse_ok print options_of (resolve_or_fallback r) write_outcome check d (deliver order)).

  (** stdin.rs:37-164. Output text and exit status; [None] is the panic of the
      pattern search.  [input] is [None] if reading stdin fails.
      Simplification: writing to stdout succeeds. *)
  Definition format_stdin (check force : bool) (p : path) (input : option text)
      : option (exit_status * option text) :=
    match resolver_for [p] with
    | None => Some (Error, None)
    | Some r =>
      let emode := if force then ExNothing else ExMatched in
      let imode := if force then InEverything else InMatched in
      let s := resolve_or_fallback r p in
      match is_stdin_formattable S user_exclude default_exclude default_include (resolve_or_fallback r) emode imode p with
      | None => None
      | Some formattable =>
        Some
          (if check then
             if negb formattable then (Success, None)
             else
               match input with
               | None => (Error, None)
               | Some old =>
                 match format_source parse_ok print old (options_of s old) with
                 | FChanged _ => (Failure, None)
                 | FUnchanged => (Success, None)
                 | _ => (Error, None)
                 end
               end
           else
             match input with
             | None => (Error, None)
             | Some old =>
               if formattable then
                 match format_source parse_ok print old (options_of s old) with
                 | FChanged new => (Success, Some new)
                 | FUnchanged => (Success, Some old)
                 | _ => (Error, None)
                 end
               else (Success, Some old)
             end)
      end
    end.
End Command.
