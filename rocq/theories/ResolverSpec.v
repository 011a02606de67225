(** Specification of the path-keyed store: a finite map and the deepest stored
    ancestor. *)
From Coq Require Import List Arith Bool NArith.
From Verif Require Import Text ResolverModel.
Import ListNotations.

Section Spec.
  Variable V : Type.

  (** The abstract store: a partial function on paths. *)
  Definition store := path -> option V.
  Definition empty_store : store := fun _ => None.
  Definition path_eqb (a b : path) : bool :=
    if list_eq_dec (list_eq_dec N.eq_dec) a b then true else false.
  Definition update (m : store) (p : path) (v : option V) : store :=
    fun q => if path_eqb q p then v else m q.

  Definition spec_step (st : store * list (option V)) (o : op V) : store * list (option V) :=
    let (m, outs) := st in
    match o with
    | OpAdd p v => (update m p (Some v), outs ++ [m p])
    | OpRemove p => (update m p None, outs ++ [m p])
    | OpClear => (empty_store, outs)
    end.
  Definition spec_run (h : list (op V)) : store * list (option V) :=
    fold_left spec_step h (empty_store, []).

  (** [p] with all its ancestors, deepest first: [p], parent, ..., root. *)
  Definition chain (p : path) : list path :=
    map (fun n => firstn n p) (rev (seq 0 (S (length p)))).

  (** Value of the deepest stored directory on the chain of [p]. *)
  Fixpoint first_on (m : store) (l : list path) : option (path * V) :=
    match l with
    | [] => None
    | q :: r => match m q with Some v => Some (q, v) | None => first_on m r end
    end.
  Definition spec_resolve (m : store) (p : path) : option (path * V) := first_on m (chain p).
End Spec.
Arguments spec_run {V}. Arguments spec_resolve {V}. Arguments first_on {V}.
Arguments update {V}. Arguments spec_step {V}. Arguments empty_store {V}.
