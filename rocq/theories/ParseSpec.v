(** What the parser should produce, written down independently of the walker:
    which texts a tree-sitter tree may describe, the list of leaves of a tree,
    and the shape of the syntax tree by rewriting lists of children. *)
From Coq Require Import List NArith Bool Arith.
From Verif Require Import Text SyntaxKind ParseModel.
Import ListNotations.

(** ** Leaves *)

(** A leaf of the source: a token with its kind, or a comment, with its byte
    range. *)
Inductive leaf := LTok (k : kind) (s e : nat) | LCom (s e : nat).

Definition leaf_start (l : leaf) := match l with LTok _ s _ => s | LCom s _ => s end.
Definition leaf_end (l : leaf) := match l with LTok _ _ e => e | LCom _ e => e end.

Fixpoint leaves (t : ts) : list leaf :=
  match t with
  | TS k _ s e children =>
    match class_of k with
    | C_value lit | C_skip lit => [LTok lit s e]
    | C_token => [LTok k s e]
    | C_content => [LTok STRING_CONTENT s e]
    | C_comment => [LCom s e]
    | _ => flat_map leaves children
    end
  end.

(** ** Which leaves describe a text (assumption on tree-sitter)

    Between leaves there is nothing but white space, semicolons and newlines;
    no leaf is empty; a comment starts with [#], has no line feed, and is
    followed by a line ending or the end of the text. *)
Definition gap_char (c : char) : bool := is_whitespace c || is_newline c.

Definition at_line_end (r : text) : bool :=
  match r with
  | [] => true
  | c :: r' =>
    (c =? LF)%N ||
    ((c =? CR)%N && match r' with d :: _ => (d =? LF)%N | [] => false end)
  end.

Definition no_lf (t : text) : bool := forallb (fun c => negb (c =? LF)%N) t.

Definition leaf_ok (l : leaf) (x rest : text) : bool :=
  negb (blen x =? 0) &&
  match l with
  | LTok _ _ _ => true
  | LCom _ _ =>
    match x with c :: _ => (c =? 35)%N | [] => false end && no_lf x && at_line_end rest
  end.

(** [laid pos ls rest]: the leaves [ls] describe the text [rest], which starts
    at byte [pos]. *)
Fixpoint laid (pos : nat) (ls : list leaf) (rest : text) : bool :=
  match ls with
  | [] => forallb gap_char rest
  | l :: ls' =>
    (pos <=? leaf_start l) && (leaf_start l <=? leaf_end l) &&
    match split_at (leaf_start l - pos) rest with
    | None => false
    | Some (g, r1) =>
      forallb gap_char g &&
      match split_at (leaf_end l - leaf_start l) r1 with
      | None => false
      | Some (x, r2) => leaf_ok l x r2 && laid (leaf_end l) ls' r2
      end
    end
  end.

(** ** Which trees tree-sitter-r's grammar produces (assumption)

    Only what the walker relies on. *)
Definition is_arguments (c : ts) : bool :=
  match ts_field c with F_arguments => true | _ => false end.

(** A delimited list: [open], then anything satisfying [p], then [close]. *)
Fixpoint closed_by (close : kind) (p : kind -> bool) (l : list ts) : bool :=
  match l with
  | [] => false
  | [c] => kind_eqb (ts_kind c) close
  | c :: r => p (ts_kind c) && closed_by close p r
  end.
Definition delimited (open close : kind) (p : kind -> bool) (l : list ts) : bool :=
  match l with
  | [] => false
  | c :: r => kind_eqb (ts_kind c) open && closed_by close p r
  end.

Definition parameters_item (k : kind) : bool :=
  match k with R_PARAMETER | COMMA | COMMENT => true | _ => false end.
Definition arguments_item (k : kind) : bool :=
  match k with R_ARGUMENT | COMMA | COMMENT => true | _ => false end.
Definition braced_item (k : kind) : bool :=
  match k with L_CURLY | R_CURLY => false | _ => true end.

(** Two arguments always have a comma between them; [after] says that the
    current slot has its argument already. *)
Fixpoint slots_ok (after : bool) (l : list ts) : bool :=
  match l with
  | [] => true
  | c :: r =>
    match ts_kind c with
    | R_ARGUMENT => negb after && slots_ok true r
    | COMMA => slots_ok false r
    | _ => slots_ok after r
    end
  end.

Definition count_kind (k : kind) (l : list ts) : nat :=
  List.length (filter (fun c => kind_eqb (ts_kind c) k) l).

(** An argument is either without [=] and without a name, or a name, [=] and
    anything after it; comments may stand anywhere. *)
Definition named (l : list ts) : bool :=
  existsb (fun c => kind_eqb (ts_kind c) EQUAL) l.
Definition plain_item (c : ts) : bool :=
  negb (kind_eqb (ts_kind c) EQUAL) && negb (is_name c).
Fixpoint skip_plain (l : list ts) : list ts :=
  match l with
  | [] => []
  | c :: r => if plain_item c then skip_plain r else l
  end.
Definition argument_ok (l : list ts) : bool :=
  if named l then
    match skip_plain l with
    | nm :: r =>
      negb (kind_eqb (ts_kind nm) EQUAL) &&
      match skip_plain r with
      | eq :: post =>
        kind_eqb (ts_kind eq) EQUAL && forallb (fun c => negb (kind_eqb (ts_kind c) EQUAL)) post
      | [] => false
      end
    | [] => false
    end
  else forallb plain_item l.

Fixpoint gram (t : ts) : bool :=
  match t with
  | TS k f _ _ children =>
    match class_of k with
    | C_root | C_unreachable => false
    | C_node | C_string => forallb gram children
    | C_call ak =>
      forallb (fun c =>
        match c with
        | TS _ F_arguments _ _ cs =>
          delimited (fst (delimiters ak)) (snd (delimiters ak)) arguments_item cs
          && slots_ok false cs && forallb gram cs
          && match class_of (ts_kind c) with C_unreachable => true | _ => false end
        | _ => gram c
        end) children
    | C_parameters =>
      delimited L_PAREN R_PAREN parameters_item children && forallb gram children
    | C_parameter => (count_kind EQUAL children <=? 1) && forallb gram children
    | C_if => (count_kind ELSE_KW children <=? 1) && forallb gram children
    | C_argument => argument_ok children && forallb gram children
    | C_braced => delimited L_CURLY R_CURLY braced_item children && forallb gram children
    | C_value _ | C_token | C_comment => match children with [] => true | _ => false end
    | C_skip _ | C_content => true
    end
  end.

Definition gram_root (t : ts) : bool :=
  kind_eqb (ts_kind t) R_ROOT && forallb gram (ts_children t).

(** ** The shape of the syntax tree *)

(** Nodes and tokens; a token knows the byte range of its own text. *)
Inductive shape := SNode (k : kind) (children : list shape) | STok (k : kind) (s e : nat).

(** A child of a tree-sitter node together with what it becomes. *)
Definition item := (ts * list shape)%type.
Definition item_kind (i : item) : kind := ts_kind (fst i).
Definition became (l : list item) : list shape := flat_map snd l.

(** Everything from the first child of kind [k] on goes into a new node. *)
Fixpoint wrap_from (k node : kind) (l : list item) : list shape :=
  match l with
  | [] => []
  | i :: r => if kind_eqb (item_kind i) k then [SNode node (became l)]
              else snd i ++ wrap_from k node r
  end.

(** The first and the last child stay, what is between becomes a list. *)
Definition wrap_inside (node : kind) (inner : list item -> list shape) (l : list item)
  : list shape :=
  match l with
  | [] => []
  | o :: r => snd o ++ [SNode node (inner (removelast r))] ++ became (skipn (List.length r - 1) r)
  end.

(** The slots of an argument list: the stretches between commas, each with the
    comma that ends it. *)
Fixpoint slots (l : list item) : list (list item * list shape) * list item :=
  match l with
  | [] => ([], [])
  | i :: r =>
    let '(ss, last) := slots r in
    if kind_eqb (item_kind i) COMMA then (([], snd i) :: ss, last)
    else match ss with
         | (s, c) :: ss' => ((i :: s, c) :: ss', last)
         | [] => ([], i :: last)
         end
  end.

(** A slot without an argument is a hole. *)
Definition slot_shape (s : list item) : list shape :=
  if existsb (fun i => kind_eqb (item_kind i) R_ARGUMENT) s then became s
  else [SNode R_ARGUMENT []].

Definition argument_list (l : list item) : list shape :=
  match slots l with
  | ([], last) => became last
  | (ss, last) => flat_map (fun s => slot_shape (fst s) ++ snd s) ss ++ slot_shape last
  end.

(** The name, the [=] and what is between them form the name clause. *)
Fixpoint name_clause (l : list item) : list shape * list shape :=
  match l with
  | [] => ([], [])
  | i :: r =>
    if kind_eqb (item_kind i) EQUAL then (snd i, became r)
    else let '(a, b) := name_clause r in (snd i ++ a, b)
  end.
Fixpoint argument_children (l : list item) : list shape :=
  match l with
  | [] => []
  | i :: r =>
    if is_name (fst i) then let '(a, b) := name_clause l in SNode R_ARGUMENT_NAME_CLAUSE a :: b
    else snd i ++ argument_children r
  end.

Fixpoint shapes (t : ts) : list shape :=
  match t with
  | TS k _ s e children =>
    let items := map (fun c => (c, shapes c)) children in
    match class_of k with
    | C_root => [SNode R_ROOT [SNode R_EXPRESSION_LIST (became items)]]
    | C_node | C_string => [SNode k (became items)]
    | C_call ak =>
      [SNode k (flat_map (fun c =>
         match c with
         | TS _ F_arguments _ _ cs =>
           [SNode ak (wrap_inside R_ARGUMENT_LIST argument_list
                        (map (fun c => (c, shapes c)) cs))]
         | _ => shapes c
         end) children)]
    | C_parameters => [SNode k (wrap_inside R_PARAMETER_LIST became items)]
    | C_parameter => [SNode k (wrap_from EQUAL R_PARAMETER_DEFAULT items)]
    | C_if => [SNode k (wrap_from ELSE_KW R_ELSE_CLAUSE items)]
    | C_argument => [SNode k (argument_children items)]
    | C_braced => [SNode k (wrap_inside R_EXPRESSION_LIST became items)]
    | C_value lit | C_skip lit => [SNode k [STok lit s e]]
    | C_token => [STok k s e]
    | C_content => [STok STRING_CONTENT s e]
    | C_comment | C_unreachable => []
    end
  end.

(** ** Reading a syntax tree *)

(** The tokens of a tree in order. *)
Fixpoint tokens (g : green) : list tok :=
  match g with
  | GNode _ cs => flat_map tokens cs
  | GTok t => [t]
  end.

(** The text of the whole tree ([text_with_trivia]). *)
Definition tree_text (g : green) : text := flat_map tk_text (tokens g).

(** Cut a text into pieces of the given byte lengths and a rest. *)
Fixpoint cut (ps : list (tkind * nat)) (t : text) : option (list (tkind * text) * text) :=
  match ps with
  | [] => Some ([], t)
  | (k, n) :: r =>
    match split_at n t with
    | None => None
    | Some (x, t') =>
      match cut r t' with
      | Some (xs, rest) => Some ((k, x) :: xs, rest)
      | None => None
      end
    end
  end.

Definition total (ps : list (tkind * nat)) : nat := list_sum (map snd ps).

(** A token taken apart: leading trivia, its own text, trailing trivia. *)
Record parts := {
  p_kind : kind;
  p_leading : list (tkind * text);
  p_own : text;
  p_trailing : list (tkind * text);
}.

Definition take_apart (t : tok) : option parts :=
  match cut (tk_leading t) (tk_text t) with
  | None => None
  | Some (lead, r) =>
    match split_at (blen r - total (tk_trailing t)) r with
    | None => None
    | Some (own, r2) =>
      match cut (tk_trailing t) r2 with
      | Some (trail, []) =>
        Some {| p_kind := tk_kind t; p_leading := lead; p_own := own; p_trailing := trail |}
      | _ => None
      end
    end
  end.

(** The trivia of a list of tokens, with the byte position of each piece and
    whether it trails its token. *)
Record placed := { pl_kind : tkind; pl_text : text; pl_pos : nat; pl_trailing : bool }.

Fixpoint place (tr : bool) (pos : nat) (xs : list (tkind * text)) : list placed :=
  match xs with
  | [] => []
  | (k, x) :: r =>
    {| pl_kind := k; pl_text := x; pl_pos := pos; pl_trailing := tr |} :: place tr (pos + blen x) r
  end.

Definition pieces_text (xs : list (tkind * text)) : text := flat_map snd xs.

Definition parts_text (p : parts) : text :=
  pieces_text (p_leading p) ++ p_own p ++ pieces_text (p_trailing p).

Fixpoint placed_trivia (pos : nat) (ps : list parts) : list placed :=
  match ps with
  | [] => []
  | p :: r =>
    place false pos (p_leading p)
    ++ place true (pos + blen (pieces_text (p_leading p)) + blen (p_own p)) (p_trailing p)
    ++ placed_trivia (pos + blen (parts_text p)) r
  end.

(** The tokens of the source, from the leaves. *)
Definition token_leaves (ls : list leaf) : list (kind * nat * nat) :=
  flat_map (fun l => match l with LTok k s e => [(k, s, e)] | _ => [] end) ls.

(** The comments of the source with where they belong: a comment trails the
    token before it iff no line feed stands between that token and the
    comment; [last] is the end of the token before. *)
Definition no_lf_between (src : text) (a b : nat) : bool :=
  match slice a b src with Some g => no_lf g | None => false end.
Fixpoint comment_places (src : text) (last : option nat) (ls : list leaf)
  : list (nat * nat * bool) :=
  match ls with
  | [] => []
  | LTok _ _ e :: r => comment_places src (Some e) r
  | LCom s e :: r =>
    (s, e, match last with Some a => no_lf_between src a s | None => false end)
    :: comment_places src last r
  end.

(** The comments among placed trivia. *)
Definition placed_comments (l : list placed) : list (nat * nat * bool) :=
  flat_map (fun p => match pl_kind p with
                     | Comment => [(pl_pos p, pl_pos p + blen (pl_text p), pl_trailing p)]
                     | _ => []
                     end) l.

(** What a piece of trivia may look like. *)
Definition piece_ok (p : tkind * text) : bool :=
  match fst p with
  | Newline =>
    text_eqb (snd p) [LF] || text_eqb (snd p) [CR; LF] || text_eqb (snd p) [CR]
  | Whitespace => negb (blen (snd p) =? 0) && forallb gap_char (snd p) && no_lf (snd p)
  | Comment => match snd p with c :: _ => (c =? 35)%N | [] => false end && no_lf (snd p)
  end.

(** Carriage returns only before line feeds. *)
Fixpoint cr_paired (x : text) : Prop :=
  match x with
  | [] => True
  | c :: r => (c = CR -> match r with d :: _ => d = LF | [] => False end) /\ cr_paired r
  end.

(** In trivia without lone carriage returns, every line break has its line
    feed. *)
Definition whole_breaks (xs : list (tkind * text)) : Prop :=
  cr_paired (pieces_text xs) -> Forall (fun p => fst p = Newline -> In LF (snd p)) xs.
(** There is a line break before every comment. *)
Definition comments_on_lines (xs : list (tkind * text)) : Prop :=
  forall a x b, xs = a ++ (Comment, x) :: b -> In LF (pieces_text a).

(** The kind and range of each token's own text. *)
Fixpoint own_ranges (pos : nat) (ps : list parts) : list (kind * nat * nat) :=
  match ps with
  | [] => []
  | p :: r =>
    let s := pos + blen (pieces_text (p_leading p)) in
    (p_kind p, s, s + blen (p_own p)) :: own_ranges (pos + blen (parts_text p)) r
  end.

(** The shape of a syntax tree, its tokens replaced by their ranges; [pos] is
    where the tree starts. *)
Definition own_range (pos : nat) (t : tok) : nat * nat :=
  (pos + total (tk_leading t), pos + (blen (tk_text t) - total (tk_trailing t))).

Fixpoint shape_of (pos : nat) (g : green) : shape * nat :=
  match g with
  | GTok t => let '(s, e) := own_range pos t in (STok (tk_kind t) s e, pos + blen (tk_text t))
  | GNode k cs =>
    let '(l, p) :=
      (fix go (pos : nat) (cs : list green) : list shape * nat :=
         match cs with
         | [] => ([], pos)
         | c :: r => let '(s, p) := shape_of pos c in
                     let '(l, p') := go p r in (s :: l, p')
         end) pos cs in
    (SNode k l, p)
  end.

(** ** Argument lists *)
Definition is_argument_shape (sh : shape) : bool :=
  match sh with SNode R_ARGUMENT _ => true | _ => false end.
Definition is_hole (sh : shape) : bool :=
  match sh with SNode R_ARGUMENT [] => true | _ => false end.

(** Arguments alternating with commas, starting and ending with an argument. *)
Inductive alternating : list shape -> Prop :=
| alt_one : forall cs, alternating [SNode R_ARGUMENT cs]
| alt_more : forall cs s e r, alternating r ->
    alternating (SNode R_ARGUMENT cs :: STok COMMA s e :: r).

(** Is the slot of each comma-separated stretch filled?  One entry per slot. *)
Fixpoint filled (this : bool) (l : list ts) : list bool :=
  match l with
  | [] => [this]
  | c :: r =>
    match ts_kind c with
    | COMMA => this :: filled false r
    | R_ARGUMENT => filled true r
    | _ => filled this r
    end
  end.

(** An argument has something besides comments in it. *)
Definition has_content (c : ts) : bool :=
  existsb (fun d => negb (kind_eqb (ts_kind d) COMMENT)) (ts_children c).

(** The children between the delimiters of a call or subset. *)
Definition argument_items (m : list ts) : Prop :=
  Forall (fun c => arguments_item (ts_kind c) = true /\ gram c = true /\
                   (ts_kind c = R_ARGUMENT -> has_content c = true)) m /\
  slots_ok false m = true.

(** ** The assumptions on tree-sitter's tree [t] of [src] together *)
Definition well_parsed (src : text) (t : ts) : Prop :=
  gram_root t = true /\ ts_end t = blen src /\ laid 0 (leaves t) src = true.

(** What the children of a call node become, its argument list apart. *)
Definition call_child (ak : kind) (d : ts) : list shape :=
  match d with
  | TS _ F_arguments _ _ cs =>
    [SNode ak (wrap_inside R_ARGUMENT_LIST argument_list (map (fun c => (c, shapes c)) cs))]
  | _ => shapes d
  end.

(** The comments of a parsed tree, for examples. *)
Fixpoint all_some {A : Type} (l : list (option A)) : option (list A) :=
  match l with
  | [] => Some []
  | None :: _ => None
  | Some a :: r => match all_some r with Some l => Some (a :: l) | None => None end
  end.
Definition tree_comments (x : option (green * bool)) : option (list (nat * nat * bool)) :=
  match x with
  | Some (g, _) =>
    match all_some (map take_apart (tokens g)) with
    | Some ps => Some (placed_comments (placed_trivia 0 ps))
    | None => None
    end
  | None => None
  end.
