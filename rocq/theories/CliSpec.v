(** Specification of the command line runs. *)
From Coq Require Import List Arith Bool NArith Sorted.
From Verif Require Import Text ResolverModel ResolverSpec DiscoverModel DiscoverSpec WalkModel CliModel.
Import ListNotations.

Section Spec.
  Variables S O : Type.
  Variable parse_ok : text -> bool.
  Variable print : O -> text -> option text.
  Variable options_of : S -> text -> O.
  Variable settings_for : path -> S.

  (** The formatted text of [t] as the content of [p], if there is one. *)
  Definition formatted (p : path) (t : text) : option text :=
    if parse_ok t then print (options_of (settings_for p) t) t else None.

  (** [p] can be read and formatted, and formatting changes it. *)
  Definition would_change (d : disk) (p : path) : Prop :=
    exists t out, d p = Some t /\ formatted p t = Some out /\ out <> t.

  (** [p] can be read and formatted. *)
  Definition formats (d : disk) (p : path) : Prop :=
    exists t out, d p = Some t /\ formatted p t = Some out.

  Definition op_path (o : disk_op) : path := match o with Truncate p => p | Fill p _ => p end.
  Definition touches (ops : list disk_op) (p : path) : Prop := exists o, In o ops /\ op_path o = p.

  (** Formatting a formatted text reproduces it. *)
  Definition idempotent : Prop := forall p t out,
    formatted p t = Some out -> formatted p out = Some out.
End Spec.

Definition path_le (a b : path) : Prop := path_cmp a b <> Gt.
