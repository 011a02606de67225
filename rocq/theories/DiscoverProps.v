(** Property theorems C08 and C09. *)
From Coq Require Import List Arith Bool NArith String.
From Verif Require Import Text SettingsModel ResolverModel ResolverSpec DiscoverModel DiscoverSpec DiscoverProofs.
Import ListNotations.

(** C08: for a file at or below a given path, with no configuration file strictly
    between, the settings in force are those of the nearest configured directory,
    and the fallback if there is none. *)
Theorem c08_nearest_air_toml_governs :
  forall S is_file parse A1 A2 (fb : S) paths p f s,
  In p paths -> ancestor_or_self p f ->
  (forall d, ancestor_or_self d f -> List.length p < List.length d ->
     find_air_toml_in_directory is_file A1 A2 d = None) ->
  settings_of S is_file parse A1 A2 fb paths f = Some s ->
  (forall d, nearest (find_air_toml_in_directory is_file A1 A2) f d ->
     settings_in S (find_air_toml_in_directory is_file A1 A2) parse d s) /\
  (ungoverned (find_air_toml_in_directory is_file A1 A2) f -> s = fb).
Proof. exact nearest_governs. Qed.
Print Assumptions c08_nearest_air_toml_governs.

(** The configuration file of a directory: air.toml wins over .air.toml. *)
Theorem c08_config_file_of_directory : forall is_file A1 A2 d t,
  find_air_toml_in_directory is_file A1 A2 d = Some t <-> config_file is_file A1 A2 d t.
Proof. exact config_file_iff. Qed.
Print Assumptions c08_config_file_of_directory.

(** The two cases are exhaustive and the nearest directory is unique. *)
Theorem c08_nearest_total : forall is_file A1 A2 p,
  (exists d, nearest (find_air_toml_in_directory is_file A1 A2) p d) \/
  ungoverned (find_air_toml_in_directory is_file A1 A2) p.
Proof. exact near_dec. Qed.
Print Assumptions c08_nearest_total.

Theorem c08_order_and_repetition_irrelevant :
  forall S is_file parse A1 A2 (fb : S) paths paths' f,
  (forall p, In p paths <-> In p paths') ->
  settings_of S is_file parse A1 A2 fb paths f = settings_of S is_file parse A1 A2 fb paths' f.
Proof. exact order_irrelevant. Qed.
Print Assumptions c08_order_and_repetition_irrelevant.

(** A small tree: /r has air.toml, /r/n has .air.toml; settings are the directory depth. *)
Definition ex_is_file (p : path) : bool :=
  existsb (path_eqb p) [[$"r"; $"air.toml"]; [$"r"; $"n"; $".air.toml"]].
Definition ex_parse (t d : path) : option nat := Some (List.length d).
Definition ex_settings_of := settings_of nat ex_is_file ex_parse ($"air.toml") ($".air.toml") 0.

Example c08_example :
  ex_settings_of [[$"r"; $"n"]; [$"r"]; [$"z"]] [$"r"; $"n"; $"a.R"] = Some 2 /\
  ex_settings_of [[$"r"; $"n"]; [$"r"]; [$"z"]] [$"r"; $"b.R"] = Some 1 /\
  ex_settings_of [[$"r"; $"n"]; [$"r"]; [$"z"]] [$"z"; $"b.R"] = Some 0.
Proof. vm_compute. repeat split. Qed.

(** Without the "nothing in between" hypothesis the nearest-directory claim is
    false: a nested configuration below a given directory is not discovered, so a
    file's settings depend on which other paths were given in the same run. *)
Theorem c08_nested_config_ignored_refuted :
  exists paths extra f,
    nearest (find_air_toml_in_directory ex_is_file ($"air.toml") ($".air.toml")) f [$"r"; $"n"] /\
    ex_settings_of paths f = Some 1 /\
    ex_settings_of (paths ++ extra) f = Some 2.
Proof.
  exists [[$"r"]], [[$"r"; $"n"; $"other.R"]], [$"r"; $"n"; $"a.R"].
  split; [|vm_compute; split; reflexivity].
  apply (near_snoc ex_is_file ($"air.toml") ($".air.toml") [$"r"; $"n"] ($"a.R")).
  - vm_compute. reflexivity.
  - apply near_self. vm_compute. discriminate.
Qed.
Print Assumptions c08_nested_config_ignored_refuted.

(** C09: discovery fails exactly if some given path is governed by a broken file. *)
Theorem c09_discovery_fails_iff_broken :
  forall S is_file parse A1 A2 paths,
  discover_settings S is_file parse A1 A2 paths = None <->
  exists p d, In p paths /\ nearest (find_air_toml_in_directory is_file A1 A2) p d /\
              broken S (find_air_toml_in_directory is_file A1 A2) parse d.
Proof. exact discover_fails_iff. Qed.
Print Assumptions c09_discovery_fails_iff_broken.

Example c09_example :
  discover_settings nat ex_is_file (fun t d => if path_eqb d [$"r"] then None else Some 1)
    ($"air.toml") ($".air.toml") [[$"r"; $"n"]; [$"r"; $"b.R"]] = None /\
  discover_settings nat ex_is_file (fun t d => if path_eqb d [$"r"] then None else Some 1)
    ($"air.toml") ($".air.toml") [[$"r"; $"n"]] = Some [([$"r"; $"n"], 1)].
Proof. vm_compute. split; reflexivity. Qed.
