(** Range formatting in the language server
    (crates/lsp/src/handlers_format.rs:71-289). *)
From Coq Require Import List NArith Bool Arith.
From Verif Require Import Text LineEndingModel LineIndexModel DocsModel TextEditModel ProtoEditsModel
  SyntaxKind ParseModel.
Import ListNotations.

(** A syntax node: where it is in the tree (indices of children from the root),
    the offset at which its text starts, and its contents.  Two nodes are equal
    iff their paths are (biome_rowan compares identity and offset). *)
Record snode := { n_path : list nat; n_pos : nat; n_green : green }.

(** biome_rowan green tree: token list and text length. *)
Fixpoint green_tokens (g : green) : list tok :=
  match g with GTok t => [t] | GNode _ cs => flat_map green_tokens cs end.
Fixpoint green_len (g : green) : nat :=
  match g with
  | GTok t => blen (tk_text t)
  | GNode _ cs => list_sum (map green_len cs)
  end.
Definition green_kind (g : green) : kind :=
  match g with GTok t => tk_kind t | GNode k _ => k end.
Definition sum_len (ps : list (tkind * nat)) : nat := list_sum (map snd ps).

(** biome_rowan [text_range_with_trivia]. *)
Definition range_with_trivia (n : snode) : nat * nat :=
  (n_pos n, n_pos n + green_len (n_green n)).

(** biome_rowan [text_trimmed_range]: without the leading trivia of the first and
    the trailing trivia of the last token.  (The original goes on past tokens
    without own text; only the end-of-file token is one, and it is outside
    every node this is called on.) *)
Definition first_leading (g : green) : list (tkind * nat) :=
  match green_tokens g with t :: _ => tk_leading t | [] => [] end.
Definition last_trailing (g : green) : list (tkind * nat) :=
  match rev (green_tokens g) with t :: _ => tk_trailing t | [] => [] end.
Definition trimmed_range (n : snode) : nat * nat :=
  (n_pos n + sum_len (first_leading (n_green n)),
   n_pos n + green_len (n_green n) - sum_len (last_trailing (n_green n))).

(** [TextRange::contains] and [contains_inclusive]. *)
Definition contains (r : nat * nat) (o : nat) : bool := (fst r <=? o) && (o <? snd r).
Definition contains_inclusive (r : nat * nat) (o : nat) : bool := (fst r <=? o) && (o <=? snd r).

(** The children of a node with their places. *)
Fixpoint children_from (path : list nat) (i pos : nat) (cs : list green) : list snode :=
  match cs with
  | [] => []
  | c :: r => {| n_path := path ++ [i]; n_pos := pos; n_green := c |}
              :: children_from path (S i) (pos + green_len c) r
  end.
Definition children (n : snode) : list snode :=
  match n_green n with
  | GNode _ cs => children_from (n_path n) 0 (n_pos n) cs
  | GTok _ => []
  end.
Definition is_node (n : snode) : bool :=
  match n_green n with GNode _ _ => true | GTok _ => false end.

(** [find_expression_lists] (handlers_format.rs:249-284): the preorder walk with
    [skip_subtree], as recursion.  [visit] is what happens on entering a node
    with the given parent, and then its subtree. *)
Definition is_contained (end_ : bool) (offset : nat) (n : snode) : bool :=
  if end_ then contains_inclusive (trimmed_range n) offset
  else contains (range_with_trivia n) offset.

Section Find.
Variables (end_ : bool) (offset : nat).

Fixpoint visit (g : green) (parent : snode) (path : list nat) (pos : nat) : list snode :=
  match g with
  | GTok _ => []
  | GNode k cs =>
    let n := {| n_path := path; n_pos := pos; n_green := g |} in
    if is_contained end_ offset n then
      (if kind_eqb (green_kind (n_green parent)) R_EXPRESSION_LIST then [parent] else [])
      ++ (fix go (i pos : nat) (cs : list green) : list snode :=
            match cs with
            | [] => []
            | c :: r => visit c n (path ++ [i]) pos ++ go (S i) (pos + green_len c) r
            end) 0 pos cs
    else []
  end.

(** The root has no parent and is not tested. *)
Definition find_expression_lists (g : green) : list snode :=
  let n := {| n_path := []; n_pos := 0; n_green := g |} in
  flat_map (fun c => visit (n_green c) n (n_path c) (n_pos c)) (children n).
End Find.

Fixpoint path_eqb (a b : list nat) : bool :=
  match a, b with
  | [], [] => true
  | x :: a, y :: b => (x =? y) && path_eqb a b
  | _, _ => false
  end.

(** [zip], [take_while] equal, [last] (handlers_format.rs:213-219). *)
Fixpoint common_last (a b : list snode) (acc : option snode) : option snode :=
  match a, b with
  | x :: a', y :: b' =>
    if path_eqb (n_path x) (n_path y) then common_last a' b' (Some x) else acc
  | _, _ => acc
  end.

Fixpoint skip_while {A} (p : A -> bool) (l : list A) : list A :=
  match l with [] => [] | a :: r => if p a then skip_while p r else l end.
Fixpoint take_while {A} (p : A -> bool) (l : list A) : list A :=
  match l with [] => [] | a :: r => if p a then a :: take_while p r else [] end.

(** [find_deepest_enclosing_logical_lines] (handlers_format.rs:206-247). *)
Definition logical_lines (g : green) (s e : nat) : list snode :=
  match common_last (find_expression_lists false s g) (find_expression_lists true e g) None with
  | None => []
  | Some list =>
    take_while (fun n => fst (trimmed_range n) <=? e)
      (skip_while (fun n => negb (contains (range_with_trivia n) s))
         (filter is_node (children list)))
  end.

(** [text_non_whitespace_range] (handlers_format.rs:168-202). *)
Definition is_blank (p : tkind * nat) : bool :=
  match fst p with Whitespace | Newline => true | Comment => false end.
Fixpoint find_start (pos : nat) (ps : list (tkind * nat)) : option nat :=
  match ps with
  | [] => None
  | p :: r => if is_blank p then find_start (pos + snd p) r else Some pos
  end.
(** [ps] reversed; [pos] is the end of the first of them. *)
Fixpoint find_end (pos : nat) (ps : list (tkind * nat)) : option nat :=
  match ps with
  | [] => None
  | p :: r => if is_blank p then find_end (pos - snd p) r else Some pos
  end.
Definition non_whitespace_range (n : snode) : nat * nat :=
  (match find_start (n_pos n) (first_leading (n_green n)) with
   | Some a => a
   | None => fst (trimmed_range n)
   end,
   match find_end (n_pos n + green_len (n_green n)) (rev (last_trailing (n_green n))) with
   | Some b => b
   | None => snd (trimmed_range n)
   end).

(** [TextRange::cover] and [reduce] (handlers_format.rs:112-116). *)
Definition cover (a b : nat * nat) : nat * nat := (Nat.min (fst a) (fst b), Nat.max (snd a) (snd b)).
Definition format_range (l : list snode) : option (nat * nat) :=
  match map non_whitespace_range l with
  | [] => None
  | r :: rs => Some (fold_left cover rs r)
  end.

(** [String::pop]. *)
Definition pop (t : text) : text := removelast t.

(** What formatting the chosen expressions gives ([format_sub_tree] on the
    artificial root): an error, nothing to print, or a text. *)
Inductive sub_tree := SubError | SubEmpty | SubText (t : text).

(** [document_range_formatting] (handlers_format.rs:72-165), once the document is
    found; casting the expressions of an expression list to [AnyRExpression]
    always succeeds. *)
Definition range_formatting (fmt : list green -> sub_tree) (excluded : bool)
    (d : document (green * bool)) (r : lsp_range) : outcome_of reply :=
  if excluded then Val NoEdits
  else if snd (d_parse d) then Val NoEdits
  else match text_range (d_enc d) (d_line_index d) r with
  | Panic => Panic
  | Fail => Val Failed
  | Val (s, e) =>
    let lines := logical_lines (fst (d_parse d)) s e in
    match format_range lines with
    | None => Val NoEdits
    | Some (a, b) =>
      match fmt (map n_green lines) with
      | SubError => Val Failed
      | SubEmpty => Val NoEdits
      | SubText t =>
        match replace_range_edit a b (pop t) (d_line_index d) (d_enc d) (d_endings d) with
        | None => Val Failed
        | Some es => Val (Edits es)
        end
      end
    end
  end.
