(** Model of crates/workspace/src/resolve.rs. *)
From Coq Require Import List Arith Bool.
From Verif Require Import Text BinSearchModel SettingsModel.
Import ListNotations.

(** An absolute, normalized path: its components below the root, so the root is
    [[]].  Simplification: Windows prefixes and [.]/[..] do not occur after
    [fs::normalize_path] (crates/fs/src/lib.rs). *)
Definition path := list text.

(** [Ord for Path]: lexicographic comparison of components
    ([std::path::compare_components]). *)
Fixpoint path_cmp (a b : path) : comparison :=
  match a, b with
  | [], [] => Eq
  | [], _ => Lt
  | _, [] => Gt
  | x :: a', y :: b' =>
    match text_cmp x y with
    | Eq => path_cmp a' b'
    | c => c
    end
  end.

(** [Path::starts_with(base)]: [base]'s components are a prefix. *)
Fixpoint starts_with (p base : path) {struct base} : bool :=
  match base, p with
  | [], _ => true
  | _, [] => false
  | y :: base', x :: p' => text_eqb x y && starts_with p' base'
  end.

Section Resolver.
  Variable V : Type.

  (** resolve.rs:18-33. [items] in increasing path order. *)
  Record resolver := { fallback : V; items : list (path * V) }.

  (** resolve.rs:51-56. *)
  Definition resolver_new (fb : V) : resolver := {| fallback := fb; items := [] |}.

  (** [Vec::insert], [Vec::remove] and replacing one element. *)
  Definition vec_insert {A} (i : nat) (x : A) (l : list A) : list A :=
    firstn i l ++ x :: skipn i l.
  Definition vec_remove {A} (i : nat) (l : list A) : list A :=
    firstn i l ++ skipn (S i) l.
  Definition vec_replace {A} (i : nat) (x : A) (l : list A) : list A :=
    firstn i l ++ x :: skipn (S i) l.

  (** resolve.rs:71-89, [add]: new state and returned old value. *)
  Definition resolver_add (r : resolver) (p : path) (v : V) : resolver * option V :=
    match binary_search_by (fun item => path_cmp (fst item) p) (items r) with
    | Found i =>
      match nth_error (items r) i with
      | Some (q, old) =>
        ({| fallback := fallback r; items := vec_replace i (q, v) (items r) |}, Some old)
      | None => (r, None)
      end
    | NotFound i =>
      ({| fallback := fallback r; items := vec_insert i (p, v) (items r) |}, None)
    end.

  (** resolve.rs:94-111, [remove]. *)
  Definition resolver_remove (r : resolver) (p : path) : resolver * option V :=
    match binary_search_by (fun item => path_cmp (fst item) p) (items r) with
    | Found i =>
      match nth_error (items r) i with
      | Some (_, v) =>
        ({| fallback := fallback r; items := vec_remove i (items r) |}, Some v)
      | None => (r, None)
      end
    | NotFound _ => (r, None)
    end.

  (** resolve.rs:125-127. *)
  Definition resolver_clear (r : resolver) : resolver :=
    {| fallback := fallback r; items := [] |}.

  (** resolve.rs:148-155, [resolve]: scan from the back. *)
  Definition resolver_resolve (r : resolver) (p : path) : option (path * V) :=
    find (fun item => starts_with p (fst item)) (rev (items r)).

  (** resolve.rs:159-162. *)
  Definition resolve_or_fallback (r : resolver) (p : path) : V :=
    match resolver_resolve r p with
    | None => fallback r
    | Some item => snd item
    end.

  (** resolve.rs:170-176 and 184-193, [matches]/[matches_mut]. *)
  Definition resolver_matches (r : resolver) (p : path) : list (path * V) :=
    filter (fun item => starts_with p (fst item)) (items r).

  (** Operations of a history. *)
  Inductive op := OpAdd (p : path) (v : V) | OpRemove (p : path) | OpClear.

  Definition resolver_step (st : resolver * list (option V)) (o : op)
      : resolver * list (option V) :=
    let (r, outs) := st in
    match o with
    | OpAdd p v => let (r', out) := resolver_add r p v in (r', outs ++ [out])
    | OpRemove p => let (r', out) := resolver_remove r p in (r', outs ++ [out])
    | OpClear => (resolver_clear r, outs)
    end.

  Definition resolver_run (fb : V) (h : list op) : resolver * list (option V) :=
    fold_left resolver_step h (resolver_new fb, []).
End Resolver.
Arguments fallback {V}. Arguments items {V}.
Arguments resolver_new {V}. Arguments resolver_add {V}. Arguments resolver_remove {V}.
Arguments resolver_clear {V}. Arguments resolver_resolve {V}. Arguments resolve_or_fallback {V}.
Arguments resolver_matches {V}. Arguments resolver_run {V}. Arguments resolver_step {V}.
Arguments OpAdd {V}. Arguments OpRemove {V}. Arguments OpClear {V}.
