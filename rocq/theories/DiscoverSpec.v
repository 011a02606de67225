(** Specification of settings discovery. *)
From Coq Require Import List Arith Bool NArith.
From Verif Require Import Text ResolverModel ResolverSpec DiscoverModel.
Import ListNotations.

Definition ancestor_or_self (a p : path) : Prop := exists r, p = a ++ r.

(** The configuration file of a directory: [main] if it exists, else [dotted]. *)
Inductive config_file (is_file : path -> bool) (main dotted : text) (d : path) : path -> Prop :=
| ConfigMain : is_file (d ++ [main]) = true -> config_file is_file main dotted d (d ++ [main])
| ConfigDotted : is_file (d ++ [main]) = false -> is_file (d ++ [dotted]) = true ->
    config_file is_file main dotted d (d ++ [dotted]).

Section Spec.
  Variable S : Type.
  (** The configuration file of a directory, if it has one. *)
  Variable toml_of : path -> option path.
  Variable parse : path -> path -> option S.

  (** [d] is the nearest ancestor-or-self of [p] with a configuration file. *)
  Definition nearest (p d : path) : Prop :=
    ancestor_or_self d p /\ toml_of d <> None /\
    forall d', ancestor_or_self d' p -> length d < length d' -> toml_of d' = None.

  (** [p] has no configuration file at all above it. *)
  Definition ungoverned (p : path) : Prop := forall d, ancestor_or_self d p -> toml_of d = None.

  (** [d] has a configuration file that cannot be used. *)
  Definition broken (d : path) : Prop := exists t, toml_of d = Some t /\ parse t d = None.

  (** Settings [s] are those written in [d]. *)
  Definition settings_in (d : path) (s : S) : Prop := exists t, toml_of d = Some t /\ parse t d = Some s.
End Spec.
Arguments nearest : clear implicits. Arguments ungoverned : clear implicits.
