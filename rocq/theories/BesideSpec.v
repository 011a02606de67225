(** The comments among operands, arguments and parameters, and the places
    where they go. *)
From Coq Require Import List Arith Bool NArith.
From Verif Require Import Text SyntaxKind FmtTree FmtSpec SourceSpec PlaceSpec BodySpec.
Import ListNotations.

(** An argument that is left out. *)
Definition hole (e : expr) : bool := match e with EArg _ None None _ => true | _ => false end.
Definition no_hole (e : option expr) : Prop := match e with Some x => hole x = false | None => True end.
Definition last_of (l : list expr) : option expr := hd_error (rev l).

(** [left] and [right] are next to each other in a node, with [G] tokens
    before a gap between them; nothing, if the gap is next to a bracket. *)
Inductive beside (r : root) : nat -> option expr -> option expr -> Prop :=
| beside_unary g n op a : In (g, EUnary n op a) (root_nodes r) -> beside r (g + 1) None (Some a)
| beside_default g n a : In (g, EDefault n a) (root_nodes r) -> beside r (g + 1) None (Some a)
| beside_binary g n x op y d : In (g, EBinary n x op y) (root_nodes r) -> In d [wide [x]; wide [x] + 1] ->
    beside r (g + d) (Some x) (Some y)
| beside_extract g n x op y d : In (g, EExtract n x op y) (root_nodes r) -> In d [wide [x]; wide [x] + 1] ->
    beside r (g + d) (Some x) (Some y)
| beside_namespace g n x op y d : In (g, ENamespace n x op y) (root_nodes r) -> In d [wide [x]; wide [x] + 1] ->
    beside r (g + d) (Some x) (Some y)
| beside_call g n f a : In (g, ECall n f a) (root_nodes r) -> beside r (g + wide [f]) (Some f) (Some a)
| beside_parameter g n a d : In (g, EParam n a (Some d)) (root_nodes r) ->
    beside r (g + wide [a]) (Some a) (Some d)
| before_parameter g n a e b : In (g, EParams n (a ++ e :: b)) (root_nodes r) ->
    beside r (g + 1 + wide a + List.length a) (last_of a) (Some e)
| after_parameter g n a e b : In (g, EParams n (a ++ e :: b)) (root_nodes r) ->
    beside r (g + 1 + wide (a ++ [e]) + List.length a) (Some e) (hd_error b)
| before_argument g n k rc a e b : In (g, EArgs n k rc (a ++ e :: b)) (root_nodes r) ->
    hole e = false -> no_hole (last_of a) ->
    beside r (g + 1 + wide a + List.length a) (last_of a) (Some e)
| after_argument g n k rc a e b : In (g, EArgs n k rc (a ++ e :: b)) (root_nodes r) -> hole e = false ->
    beside r (g + 1 + wide (a ++ [e]) + List.length a) (Some e) (hd_error b).

(** Comments at the end of a line belong to what is on the left, those on
    lines of their own to what is on the right. *)
Definition shared (left right : option expr) (l : list (text * bool)) : Prop :=
  match left, right with
  | Some x, Some y =>
    holds false (n_trail (notes_of x)) (end_of_line l) /\ holds false (n_lead (notes_of y)) (own_line l)
  | Some x, None => holds false (n_trail (notes_of x)) (all_comments l)
  | None, Some y => holds false (n_lead (notes_of y)) (all_comments l)
  | None, None => False
  end.

(** The comments where an argument is left out ([a]: the arguments before it):
    they stay with the argument before it, if there is one. *)
Definition hole_notes (a : list expr) (h : expr) : list comment :=
  match last_of a with
  | Some x => if hole x then n_lead (notes_of h) else n_trail (notes_of x)
  | None => n_lead (notes_of h)
  end.

(** The gaps between the tokens of the file whose comments have a place: next
    to an expression of the file or of braces, inside parentheses, in a header,
    in front of a body, around [else], next to an operand, an argument or a
    parameter, where an argument is left out, or inside brackets without
    anything.  The others are between the tokens of a string: there are no
    comments. *)
Inductive placed_gap (r : root) : nat -> Prop :=
| gap_sequence b g a c : sequence r b g (a ++ c) -> placed_gap r (g + wide a)
| gap_paren g n e d : In (g, EParen n e) (root_nodes r) -> In d [1; 1 + wide [e]] -> placed_gap r (g + d)
| gap_body G b : before_body r G b -> placed_gap r G
| gap_header G e : in_header r G e -> placed_gap r G
| gap_condition g n c th el d : In (g, EIf n c th el) (root_nodes r) -> In d [1; 2; 2 + wide [c]] ->
    placed_gap r (g + d)
| gap_before_else g n c th n' nl a : In (g, EIf n c th (Some (EElse n' nl a))) (root_nodes r) ->
    placed_gap r (g + 3 + wide [c; th])
| gap_after_else g n nl a : In (g, EElse n nl a) (root_nodes r) -> placed_gap r (g + 1)
| gap_beside G x y : beside r G x y -> placed_gap r G
| gap_hole g n k rc a h b : In (g, EArgs n k rc (a ++ h :: b)) (root_nodes r) -> hole h = true ->
    placed_gap r (g + 1 + wide a + List.length a)
| gap_behind_hole g n k rc a h e b : In (g, EArgs n k rc (a ++ h :: e :: b)) (root_nodes r) ->
    hole h = true -> hole e = false -> placed_gap r (g + 2 + wide a + List.length a)
| gap_named g n x y k : In (g, EArg n (Some x) (Some y) k) (root_nodes r) -> placed_gap r (g + wide [x])
| gap_name g n x : In (g, ENameClause n x) (root_nodes r) -> placed_gap r (g + wide [x])
| gap_nothing g n e : In (g, e) (root_nodes r) -> (exists k rc, e = EArgs n k rc []) \/ e = EParams n [] ->
    placed_gap r (g + 1)
| gap_string g n ts d : In (g, ELeaf n R_STRING_VALUE ts) (root_nodes r) -> 1 <= d < List.length ts ->
    placed_gap r (g + d).
