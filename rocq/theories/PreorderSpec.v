(** What the parser's loops are compared with: tree-sitter's tree with the names
    of its nodes replaced by the kinds they stand for, gone over by recursion. *)
From Coq Require Import List NArith Bool Arith String.
From Verif Require Import Text SyntaxKind ParseModel PreorderModel.
Import ListNotations.

(** A node whose name the parser does not know has the kind [R_UNMAPPED]. *)
Definition kind_of (name : text) : kind :=
  match node_syntax_kind name with Some k => k | None => R_UNMAPPED end.

Definition field_of (f : option text) : field :=
  match f with
  | Some x => if text_eqb x $"arguments" then F_arguments
              else if text_eqb x $"name" then F_name else F_other
  | None => F_other
  end.

Fixpoint conv (t : nts) : ts :=
  match t with NTS n f s e cs => TS (kind_of n) (field_of f) s e (map conv cs) end.

(** The loop [f], given enough fuel, has the result [r]. *)
Definition comes_to {A} (f : nat -> res A) (r : res A) : Prop :=
  exists n, forall m, n <= m -> f m = r.

(** A panic is a panic; running out of fuel is no result. *)
Definition result {A} (o : option A) : res A :=
  match o with Some a => Ok a | None => Panic end.
