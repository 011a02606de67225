(** Model of file discovery: crates/workspace/src/discovery.rs:121-452,
    crates/workspace/src/file_patterns.rs, the default patterns in
    crates/workspace/src/settings/default_{ex,in}clude_patterns.rs, and the decision
    for stdin in crates/air/src/commands/format/stdin.rs:188-257. *)
From Coq Require Import List Arith Bool NArith String.
From Verif Require Import Text ResolverModel ResolverSpec DiscoverModel.
Import ListNotations.

(** [ignore::Match] without payload. *)
Inductive match3 := MNone | MIgnore | MWhitelist.

(** A compiled [Gitignore]: its root and, as an oracle, [matched_stripped] on a
    path that is absolute ([true]) or relative ([false]). *)
Record patterns := {
  p_root : path;
  p_match : bool -> path -> bool -> match3
}.

(** [Gitignore::strip]: removes the root if it is a prefix; the flag tells whether
    the result is still absolute. *)
Definition strip_root (root p : path) : bool * path :=
  if starts_with p root then (false, skipn (List.length root) p) else (true, p).

(** [Gitignore::matched]. *)
Definition gi_matched (ps : patterns) (p : path) (is_dir : bool) : match3 :=
  let (abs, q) := strip_root (p_root ps) p in p_match ps abs q is_dir.

(** First match on a list of (path, is_dir), child first. *)
Fixpoint first_match (m : path -> bool -> match3) (l : list (path * bool)) : match3 :=
  match l with
  | [] => MNone
  | (p, d) :: r => match m p d with MNone => first_match m r | a => a end
  end.

(** The path with its own kind, followed by its parents as directories. *)
Definition self_and_parents (p : path) (is_dir : bool) : list (path * bool) :=
  match ancestors p with
  | [] => []
  | q :: r => (q, is_dir) :: map (fun a => (a, true)) r
  end.

(** [Gitignore::matched_path_or_any_parents]; [None] is its panic on a path that is
    still absolute after stripping. *)
Definition gi_matched_or_parents (ps : patterns) (p : path) (is_dir : bool) : option match3 :=
  let (abs, q) := strip_root (p_root ps) p in
  if abs then None
  else Some (first_match (p_match ps false) (self_and_parents q is_dir)).

Definition is_ignore (m : match3) : bool := match m with MIgnore => true | _ => false end.

(** file_patterns.rs:67-78, [FilePatterns::matched] (a whitelist is no match). *)
Definition fp_matched (ps : patterns) (p : path) (is_dir : bool) : bool :=
  is_ignore (gi_matched ps p is_dir).
(** file_patterns.rs:86-97. *)
Definition fp_matched_or_parents (ps : patterns) (p : path) (is_dir : bool) : option bool :=
  match gi_matched_or_parents ps p is_dir with
  | None => None
  | Some m => Some (is_ignore m)
  end.

(** One path component of a glob. *)
Inductive gatom := GChar (c : char) | GStar | GClass (cs : list char).
Fixpoint glob_match (g : list gatom) : text -> bool :=
  match g with
  | [] => fun t => match t with [] => true | _ => false end
  | GChar c :: g' => fun t => match t with x :: t' => N.eqb x c && glob_match g' t' | [] => false end
  | GClass cs :: g' => fun t => match t with x :: t' => existsb (N.eqb x) cs && glob_match g' t' | [] => false end
  | GStar :: g' =>
    fix star (t : text) : bool :=
      glob_match g' t || match t with [] => false | _ :: t' => star t' end
  end.

(** A default pattern ["**/<component>"] with an optional trailing slash: it looks
    only at the last component.  Trusted reading of [globset]. *)
Record default_pattern := { dp_glob : list gatom; dp_dir_only : bool }.
Definition dp_matched (d : default_pattern) (p : path) (is_dir : bool) : bool :=
  match rev p with
  | [] => false
  | name :: _ => glob_match (dp_glob d) name && (negb (dp_dir_only d) || is_dir)
  end.

Definition lit (t : text) : list gatom := map GChar t.

(** default_exclude_patterns.rs:24-34. *)
Definition DEFAULT_EXCLUDE : list default_pattern :=
  [ {| dp_glob := lit ($".git"); dp_dir_only := true |};
    {| dp_glob := lit ($"renv"); dp_dir_only := true |};
    {| dp_glob := lit ($"revdep"); dp_dir_only := true |};
    {| dp_glob := lit ($"cpp11.R"); dp_dir_only := false |};
    {| dp_glob := lit ($"RcppExports.R"); dp_dir_only := false |};
    {| dp_glob := lit ($"extendr-wrappers.R"); dp_dir_only := false |};
    {| dp_glob := lit ($"import-standalone-") ++ [GStar] ++ lit ($".R"); dp_dir_only := false |} ].

(** default_include_patterns.rs: the single pattern ["**/*.[R,r]"]. *)
Definition DEFAULT_INCLUDE : list default_pattern :=
  [ {| dp_glob := [GStar] ++ lit ($".") ++ [GClass ($"R,r")]; dp_dir_only := false |} ].

(** file_patterns.rs:124-133, [DefaultFilePatterns::matched]. *)
Definition df_matched (ds : list default_pattern) (p : path) (is_dir : bool) : bool :=
  existsb (fun d => dp_matched d p is_dir) ds.
(** file_patterns.rs:141-160: the custom parent walk. *)
Definition df_matched_or_parents (ds : list default_pattern) (p : path) (is_dir : bool) : bool :=
  existsb (fun q => df_matched ds (fst q) (snd q)) (self_and_parents p is_dir).

(** discovery.rs:98-114. *)
Inductive exclude_mode := ExMatched | ExNothing.
Inductive include_mode := InMatched | InEverything.

(** What the walker finds on disk: a regular file (or symlink or other
    non-directory), a directory with its entries, a directory that cannot be listed,
    or an entry that cannot be inspected. *)
Inductive node :=
| File
| Dir (entries : list (text * node))
| Unlistable
| Unreadable.

Definition is_dir_node (n : node) : bool :=
  match n with Dir _ | Unlistable => true | _ => false end.

(** discovery.rs:86: [Result<PathBuf, ignore::Error>]. *)
Inductive found := FOk (p : path) | FErr (p : path).

Section Walk.
  Variable S : Type.
  (** The three pattern fields of [FormatSettings] (settings.rs:32-57). *)
  Variable user_exclude : S -> option patterns.
  Variable default_exclude : S -> bool.
  Variable default_include : S -> bool.
  (** [resolver.resolve_or_fallback] as a function. *)
  Variable settings_for : path -> S.
  (** Entries below a start path that the [ignore] crate itself drops: hidden files
      and git-ignored files (discovery.rs:143-154).  Oracle. *)
  Variable dropped : path -> path -> bool -> bool.
  Variable emode : exclude_mode.
  Variable imode : include_mode.

  (** discovery.rs:389-409, [any_exclude_matched_path]. *)
  Definition any_exclude_matched_path (s : S) (p : path) (is_dir : bool) : bool :=
    match user_exclude s with Some ps => fp_matched ps p is_dir | None => false end
    || (default_exclude s && df_matched DEFAULT_EXCLUDE p is_dir).

  (** discovery.rs:415-437, [any_exclude_matched_path_or_any_parents]. *)
  Definition any_exclude_matched_path_or_any_parents (s : S) (p : path) (is_dir : bool)
      : option bool :=
    match
      match user_exclude s with
      | Some ps => fp_matched_or_parents ps p is_dir
      | None => Some false
      end
    with
    | None => None
    | Some true => Some true
    | Some false => Some (default_exclude s && df_matched_or_parents DEFAULT_EXCLUDE p is_dir)
    end.

  (** discovery.rs:443-452, [any_include_matched_path]. *)
  Definition any_include_matched_path (s : S) (p : path) : bool :=
    default_include s && df_matched DEFAULT_INCLUDE p false.

  (** Outcome of visiting one entry: skip its contents, and what is pushed. *)
  Inductive visit_out := VSkip | VContinue (out : list found) | VPanic.

  (** discovery.rs:272-369, [visit_format]. *)
  Definition visit_format (direct : bool) (p : path) (is_dir : bool) : visit_out :=
    let s := settings_for p in
    let excluded :=
      match emode with
      | ExMatched =>
        if direct then any_exclude_matched_path_or_any_parents s p is_dir
        else Some (any_exclude_matched_path s p is_dir)
      | ExNothing => Some false
      end in
    match excluded with
    | None => VPanic
    | Some true => VSkip
    | Some false =>
      if is_dir then VContinue []
      else
        match imode with
        | InMatched =>
          if any_include_matched_path s p then VContinue [FOk p] else VContinue []
        | InEverything => VContinue [FOk p]
        end
    end.

  (** One unit of work of [ignore::WalkParallel]: start path, own path, whether it
      is a start path ([depth == 0]) and what is on disk there. *)
  Record work := { w_start : path; w_path : path; w_direct : bool; w_node : node }.

  (** [ignore]'s per-entry handling (0.4.23, walk.rs [run_one] and
      [generate_work]): visit the entry; for a directory that was not skipped,
      report a listing failure or produce one unit of work per entry that is not
      dropped.  Result: what the visitor pushes, and the new work. *)
  Definition process (w : work) : option (list found * list work) :=
    match w_node w with
    | Unreadable => Some ([FErr (w_path w)], [])
    | File =>
      match visit_format (w_direct w) (w_path w) false with
      | VPanic => None
      | VSkip => Some ([], [])
      | VContinue out => Some (out, [])
      end
    | Unlistable =>
      match visit_format (w_direct w) (w_path w) true with
      | VPanic => None
      | VSkip => Some ([], [])
      | VContinue out => Some (out ++ [FErr (w_path w)], [])
      end
    | Dir entries =>
      match visit_format (w_direct w) (w_path w) true with
      | VPanic => None
      | VSkip => Some ([], [])
      | VContinue out =>
        Some (out,
          map (fun e => {| w_start := w_start w; w_path := w_path w ++ [fst e];
                           w_direct := false; w_node := snd e |})
            (filter (fun e => negb (dropped (w_start w) (w_path w ++ [fst e]) (is_dir_node (snd e))))
               entries))
      end
    end.

  (** Parallel walk: a bag of pending work and one vector of results per thread.
      Any thread may take any pending unit next (over-approximates work stealing). *)
  Record pstate := { pending : list work; threads : list (list found) }.

  Definition push_thread (i : nat) (out : list found) (ts : list (list found)) : list (list found) :=
    firstn i ts ++ match skipn i ts with [] => [] | t :: r => (t ++ out) :: r end.

  Inductive pstep : pstate -> pstate -> Prop :=
  | PStep : forall b1 w b2 ts i out new,
      process w = Some (out, new) -> i < List.length ts ->
      pstep {| pending := b1 ++ w :: b2; threads := ts |}
            {| pending := new ++ b1 ++ b2; threads := push_thread i out ts |}.

  Inductive psteps : pstate -> pstate -> Prop :=
  | PRefl : forall s, psteps s s
  | PTrans : forall a b c, pstep a b -> psteps b c -> psteps a c.

  (** discovery.rs:121-169: start state for the given paths. *)
  Definition start_works (roots : list (path * node)) : list work :=
    map (fun r => {| w_start := fst r; w_path := fst r; w_direct := true; w_node := snd r |}) roots.

  (** discovery.rs:371-383: on drop, in some order, each thread appends its vector to
      the shared one. *)
  Definition deliver (order : list (list found)) : list found :=
    fold_left (fun files t => match files with [] => t | _ => files ++ t end) order [].

  (** crates/air/src/commands/format/stdin.rs:188-257, [is_stdin_formattable];
      [None] is the panic of the parent search. *)
  Definition is_stdin_formattable (p : path) : option bool :=
    let s := settings_for p in
    match
      match emode with
      | ExMatched => any_exclude_matched_path_or_any_parents s p false
      | ExNothing => Some false
      end
    with
    | None => None
    | Some true => Some false
    | Some false =>
      Some match imode with
           | InMatched => any_include_matched_path s p
           | InEverything => true
           end
    end.
End Walk.
