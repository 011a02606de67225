(** The comments in the headers of loops, functions and conditions, and the
    places where they go. *)
From Coq Require Import List Arith Bool NArith.
From Verif Require Import Text SyntaxKind FmtTree FmtSpec SourceSpec PlaceSpec.
Import ListNotations.

(** The comments at the start of a body: in front of the first expression of
    its braces, inside empty ones, in front of a body without braces. *)
Definition body_notes (b : expr) : list comment :=
  match b with
  | EBraced n [] => n_dang n
  | EBraced _ (e :: _) => n_lead (notes_of e)
  | _ => n_lead (notes_of b)
  end.
(** The same for what comes after [else]: of [else if], the body of the [if]. *)
Definition alternative_notes (a : expr) : list comment :=
  match a with EIf _ _ t _ => body_notes t | _ => body_notes a end.

(** The comments [l] of the source are among [cs], together and in order, and
    stand inside the node that has them or not. *)
Definition holds (within : bool) (cs : list comment) (l : list text) : Prop :=
  exists x y z, cs = x ++ y ++ z /\ map c_text y = l /\ Forall (fun c => c_within c = within) y.

(** There are [G] tokens before the body [b], and they end with the header of
    its loop, function or condition. *)
Inductive before_body (r : root) : nat -> expr -> Prop :=
| body_for g n v s b : In (g, EFor n v s b) (root_nodes r) ->
    before_body r (g + 4 + wide [v; s]) b
| body_while g n c b : In (g, EWhile n c b) (root_nodes r) -> before_body r (g + 3 + wide [c]) b
| body_repeat g n b : In (g, ERepeat n b) (root_nodes r) -> before_body r (g + 1) b
| body_function g n k ps b : In (g, EFunction n k ps b) (root_nodes r) ->
    before_body r (g + 1 + wide [ps]) b
| body_if g n c t el : In (g, EIf n c t el) (root_nodes r) -> before_body r (g + 3 + wide [c]) t.

(** The header of the loop or function [e] goes on after [G] tokens. *)
Inductive in_header (r : root) : nat -> expr -> Prop :=
| header_for g n v s b d : In (g, EFor n v s b) (root_nodes r) ->
    In d [1; 2; 2 + wide [v]; 3 + wide [v]; 3 + wide [v; s]] ->
    in_header r (g + d) (EFor n v s b)
| header_while g n c b d : In (g, EWhile n c b) (root_nodes r) ->
    In d [1; 2; 2 + wide [c]] -> in_header r (g + d) (EWhile n c b)
| header_function g n k ps b : In (g, EFunction n k ps b) (root_nodes r) ->
    in_header r (g + 1) (EFunction n k ps b).
