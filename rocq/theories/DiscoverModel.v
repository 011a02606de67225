(** Model of settings discovery: crates/workspace/src/discovery.rs:36-84 and
    crates/workspace/src/toml.rs:54-69. *)
From Coq Require Import List Arith Bool NArith.
From Verif Require Import Text ResolverModel ResolverSpec.
Import ListNotations.

(** [Path::ancestors] of an absolute path: the path itself first, the root last. *)
Fixpoint ancestors_rev (rp : list text) : list (list text) :=
  rp :: match rp with [] => [] | _ :: r => ancestors_rev r end.
Definition ancestors (p : path) : list path := map (@rev text) (ancestors_rev (rev p)).

Section Discover.
  Variable S : Type.
  (** File system oracle: which paths are existing regular files
      ([Path::is_file]). *)
  Variable is_file : path -> bool.
  (** [parse_air_toml] followed by [into_settings(root)] (discovery.rs:80-84);
      [None] is any error, be it reading, TOML syntax or invalid options. *)
  Variable parse_settings : path -> path -> option S.
  (** The two file names (toml.rs:54-69). *)
  Variables AIR_TOML DOT_AIR_TOML : text.

  (** toml.rs:54-69, [find_air_toml_in_directory]. *)
  Definition find_air_toml_in_directory (d : path) : option path :=
    if is_file (d ++ [AIR_TOML]) then Some (d ++ [AIR_TOML])
    else if is_file (d ++ [DOT_AIR_TOML]) then Some (d ++ [DOT_AIR_TOML])
    else None.

  Definition mem_path (p : path) (l : list path) : bool := existsb (path_eqb p) l.

  Definition discovered := list (path * S).

  (** discovery.rs:43-60, the inner loop over ancestors. [None] is the early
      return by [?].  [seen] is a hash set; here a list. *)
  Fixpoint discover_ancestors (seen : list path) (found : discovered) (l : list path)
      : option (list path * discovered) :=
    match l with
    | [] => Some (seen, found)
    | a :: rest =>
      if mem_path a seen then Some (seen, found)
      else
        let seen := a :: seen in
        match find_air_toml_in_directory a with
        | Some toml =>
          match parse_settings toml a with
          | None => None
          | Some s => Some (seen, found ++ [(a, s)])
          end
        | None => discover_ancestors seen found rest
        end
    end.

  (** discovery.rs:36-74, the outer loop over (normalized) paths. *)
  Fixpoint discover_loop (seen : list path) (found : discovered) (paths : list path)
      : option discovered :=
    match paths with
    | [] => Some found
    | p :: rest =>
      match discover_ancestors seen found (ancestors p) with
      | None => None
      | Some (seen', found') => discover_loop seen' found' rest
      end
    end.
  Definition discover_settings (paths : list path) : option discovered :=
    discover_loop [] [] paths.

  (** crates/air/src/commands/format/paths.rs:43-52: loading the resolver. *)
  Definition load_resolver (fb : S) (found : discovered) : resolver S :=
    fold_left (fun r ds => fst (resolver_add r (fst ds) (snd ds))) found (resolver_new fb).
End Discover.
Arguments find_air_toml_in_directory : clear implicits.
