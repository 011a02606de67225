(** What range formatting may change. *)
From Coq Require Import List NArith Bool Arith.
From Verif Require Import Text SyntaxKind ParseModel ParseSpec.
Import ListNotations.

(** [sub_at g before g' after]: [g'] is a subtree of [g]; [before] and [after] are
    the texts on its two sides. *)
Inductive sub_at : green -> text -> green -> text -> Prop :=
| sub_here : forall g, sub_at g [] g []
| sub_down : forall k l c r a g b, sub_at c a g b ->
    sub_at (GNode k (l ++ c :: r)) (flat_map tree_text l ++ a) g (b ++ flat_map tree_text r).

(** What is assumed of the parser's trees: each token can be taken apart (C34),
    and an expression list has nodes as children (the syntax's definition of
    [RExpressionList]). *)
Fixpoint lists_of_nodes (g : green) : bool :=
  match g with
  | GTok _ => true
  | GNode k cs =>
    forallb lists_of_nodes cs &&
    (negb (kind_eqb k R_EXPRESSION_LIST)
     || forallb (fun c => match c with GNode _ _ => true | GTok _ => false end) cs)
  end.
Definition sound_tree (g : green) : Prop :=
  Forall (fun t => exists p, take_apart t = Some p) (tokens g) /\ lists_of_nodes g = true.

Definition text_of (l : list green) : text := flat_map tree_text l.

(** The length of the trivia in front of an expression. *)
Definition leading_len (g : green) : nat :=
  match tokens g with t :: _ => total (tk_leading t) | [] => 0 end.

(** The white space and newlines at the outer ends: all pieces of the leading
    trivia of the first token up to the first comment, and all pieces of the
    trailing trivia of the last token after the last comment. *)
Definition blank (p : tkind * text) : bool :=
  match fst p with Whitespace | Newline => true | Comment => false end.
Fixpoint leading_blank (ps : list (tkind * text)) : text :=
  match ps with
  | [] => []
  | p :: r => if blank p then snd p ++ leading_blank r else []
  end.
Fixpoint trailing_blank (ps : list (tkind * text)) : text :=
  match ps with
  | [] => []
  | p :: r => if forallb blank (p :: r) then pieces_text (p :: r) else trailing_blank r
  end.
Definition blank_before (g : green) : text :=
  match tokens g with
  | t :: _ => match take_apart t with Some p => leading_blank (p_leading p) | None => [] end
  | [] => []
  end.
Definition blank_after (g : green) : text :=
  match rev (tokens g) with
  | t :: _ => match take_apart t with Some p => trailing_blank (p_trailing p) | None => [] end
  | [] => []
  end.

(** [run] is the stretch of the expression list [before ++ run ++ after] (whose
    text starts at byte [pos]) belonging to the selection [s]-[e]: it starts with
    the expression whose text, trivia included, holds [s], and goes on as long as
    an expression starts (trivia excluded) at or before [e]. *)
Definition selected (pos s e : nat) (before run after : list green) : Prop :=
  (exists g r, run = g :: r /\
     pos + blen (text_of before) <= s /\ s < pos + blen (text_of before) + blen (tree_text g)) /\
  (forall r1 g r2, run = r1 ++ g :: r2 ->
     pos + blen (text_of before) + blen (text_of r1) + leading_len g <= e) /\
  (forall a1 g a2, after = a1 ++ g :: a2 ->
     e < pos + blen (text_of before) + blen (text_of run) + blen (text_of a1) + leading_len g).

(** The length of the trivia behind an expression. *)
Definition trailing_len (g : green) : nat :=
  match rev (tokens g) with t :: _ => total (tk_trailing t) | [] => 0 end.

Definition holds_start (s q : nat) (g : green) : Prop := q <= s /\ s < q + blen (tree_text g).
Definition holds_end (e q : nat) (g : green) : Prop :=
  q + leading_len g <= e /\ e <= q + blen (tree_text g) - trailing_len g.

(** [within s e g p g' p']: one gets from [g], which starts at byte [p], down to
    [g'], which starts at [p'], through nodes that hold both ends of the
    selection, the end of the selection not being at the very start of a node. *)
Inductive within (s e : nat) : green -> nat -> green -> nat -> Prop :=
| within_here : forall g p, within s e g p g p
| within_down : forall k l k' cs r p q g' p',
    q = p + blen (text_of l) ->
    holds_start s q (GNode k' cs) ->
    holds_end e q (GNode k' cs) -> q + leading_len (GNode k' cs) < e ->
    within s e (GNode k' cs) q g' p' ->
    within s e (GNode k (l ++ GNode k' cs :: r)) p g' p'.

(** An expression list one expression of which holds the start of the selection
    and one the end. *)
Definition list_of_both (s e : nat) (g : green) (p : nat) : Prop :=
  (exists l k cs r, g = GNode R_EXPRESSION_LIST (l ++ GNode k cs :: r) /\
     holds_start s (p + blen (text_of l)) (GNode k cs)) /\
  (exists l k cs r, g = GNode R_EXPRESSION_LIST (l ++ GNode k cs :: r) /\
     holds_end e (p + blen (text_of l)) (GNode k cs)).

(** [g'], found [off] bytes from the start of the text, lies in [g], which starts at [p]. *)
Definition lies_in (g : green) (p : nat) (g' : green) (off : nat) : Prop :=
  exists x y, sub_at g x g' y /\ off = p + blen x.

(** No expression list that holds both ends is deeper. *)
Definition deepest (root : green) (s e : nat) (g : green) (off : nat) : Prop :=
  forall g' p', within s e root 0 g' p' -> list_of_both s e g' p' -> lies_in g' p' g off.

(** What a parse without errors gives (C34). *)
Definition fits (parse : text -> green * bool) (t : text) : Prop :=
  snd (parse t) = false -> sound_tree (fst (parse t)) /\ tree_text (fst (parse t)) = t.
