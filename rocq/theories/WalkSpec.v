(** Specification of file selection, in terms of paths only. *)
From Coq Require Import List Arith Bool NArith String.
From Verif Require Import Text ResolverModel ResolverSpec DiscoverModel DiscoverSpec WalkModel.
Import ListNotations.

(** [m] is what is on disk at relative path [rel] below [n]. *)
Inductive at_path : node -> path -> node -> Prop :=
| AtHere : forall n, at_path n [] n
| AtBelow : forall es c n rel m, In (c, n) es -> at_path n rel m -> at_path (Dir es) (c :: rel) m.

(** What a file or directory with this name matches of the built-in patterns
    (docs/configuration.qmd: the default exclusions and inclusions). *)
Definition builtin_excluded (name : text) (is_dir : bool) : Prop :=
  is_dir = true /\ (name = $".git" \/ name = $"renv" \/ name = $"revdep") \/
  name = $"cpp11.R" \/ name = $"RcppExports.R" \/ name = $"extendr-wrappers.R" \/
  exists x, name = $"import-standalone-" ++ x ++ $".R".
Definition builtin_included (name : text) : Prop :=
  exists x c, name = x ++ $"." ++ [c] /\ In c ($"R,r").

Section Spec.
  Variable S : Type.
  Variable user_exclude : S -> option patterns.
  Variable default_exclude default_include : S -> bool.
  Variable settings_for : path -> S.
  Variable dropped : path -> path -> bool -> bool.
  Variable force : bool.

  (** [q] itself matches an exclusion (user pattern or built-in). *)
  Definition excluded_itself (q : path) (d : bool) : Prop :=
    (exists ps rel, user_exclude (settings_for q) = Some ps /\ q = p_root ps ++ rel /\
       p_match ps false rel d = MIgnore) \/
    (default_exclude (settings_for q) = true /\
     exists dir name, q = dir ++ [name] /\ builtin_excluded name d).

  (** [q] is excluded by itself or through a parent: the innermost decision of the
      user patterns, at or above [q] but within their root, is to ignore; or a
      built-in pattern matches [q] or any parent. *)
  Definition innermost_ignores (ps : patterns) (q : path) (d : bool) : Prop :=
    exists a b, q = p_root ps ++ a ++ b /\
      p_match ps false a (match b with [] => d | _ => true end) = MIgnore /\
      forall a' b', a ++ b = a' ++ b' -> List.length a < List.length a' ->
        p_match ps false a' (match b' with [] => d | _ => true end) = MNone.
  Definition excluded_or_parents (q : path) (d : bool) : Prop :=
    (exists ps, user_exclude (settings_for q) = Some ps /\ innermost_ignores ps q d) \/
    (default_exclude (settings_for q) = true /\
     exists dir name rest, q = dir ++ name :: rest /\
       builtin_excluded name (match rest with [] => d | _ => true end)).

  Definition included (q : path) : Prop :=
    default_include (settings_for q) = true /\
    exists dir name, q = dir ++ [name] /\ builtin_included name.

  (** An entry [q] found below [start] is passed. *)
  Definition passes (start : path) (q : path) (d : bool) : Prop :=
    (force = false -> ~ excluded_itself q d) /\ dropped start q d = false.

  Definition nonempty (r : path) : bool := match r with [] => false | _ => true end.

  (** The file [f], found at or below [start], where [n] is on disk, is selected: it
      is included, the start path is not excluded, even through a parent, and every
      entry on the way down to [f], and [f], is passed. *)
  Definition selects (start : path) (n : node) (f : path) : Prop :=
    exists rel, f = start ++ rel /\ at_path n rel File /\
      (force = false -> included f /\ ~ excluded_or_parents start (nonempty rel)) /\
      (forall r1 r2, rel = r1 ++ r2 -> r1 <> [] -> passes start (start ++ r1) (nonempty r2)).

  (** A failure is reported for [q]: it is a directory that cannot be listed and that
      the walk enters, or an entry that cannot be inspected, in a directory that the
      walk enters, and not dropped.  The start path is not excluded, even through a
      parent, and every directory on the way is passed. *)
  Definition fails (start : path) (n : node) (q : path) : Prop :=
    exists rel m, q = start ++ rel /\ at_path n rel m /\ (m = Unlistable \/ m = Unreadable) /\
      (force = false -> rel <> [] \/ m = Unlistable -> ~ excluded_or_parents start true) /\
      (forall r1 r2, rel = r1 ++ r2 -> r1 <> [] -> r2 <> [] \/ m = Unlistable -> passes start (start ++ r1) true) /\
      (m = Unreadable -> rel <> [] -> dropped start q false = false).
End Spec.
