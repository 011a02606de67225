(** Where the nodes of the typed tree stand in the source. *)
From Coq Require Import List Arith Bool NArith.
From Verif Require Import Text SyntaxKind ParseModel ParseSpec FmtTree IrModel FmtSpec FmtPathSpec.
Import ListNotations.

(** The tokens and the comments among some leaves of tree-sitter's tree. *)
Definition tokens_at (src : text) (ls : list leaf) : list token :=
  flat_map (fun l => match l with
                     | LTok k s e => match slice s e src with Some x => [tk k x] | None => [] end
                     | LCom _ _ => []
                     end) ls.
Definition comments_at (src : text) (ls : list leaf) : list text :=
  flat_map (fun l => match l with
                     | LTok _ _ _ => []
                     | LCom s e => match slice s e src with Some x => [x] | None => [] end
                     end) ls.

(** Leaves that begin with a token, at byte [s], and end with one, at [f]. *)
Definition bounded (ls : list leaf) (s f : nat) : Prop :=
  (exists k e r, ls = LTok k s e :: r) /\ (exists r k b, ls = r ++ [LTok k b f]).

(** * Nodes *)

(** The nodes of a tree, each with the number of the tokens before it.  [g]:
    those before the whole; [sep]: the tokens between the items of a list. *)
Definition row (f : nat -> expr -> list (nat * expr)) (sep : nat) : nat -> list expr -> list (nat * expr) :=
  fix go (g : nat) (l : list expr) :=
    match l with
    | [] => []
    | x :: r => f g x ++ go (g + List.length (etokens x) + sep) r
    end.
Fixpoint nodes (g : nat) (e : expr) : list (nat * expr) :=
  let wide x := List.length (etokens x) in
  (g, e) ::
  match e with
  | ELeaf _ _ _ => []
  | EUnary _ _ a | EDefault _ a | EElse _ _ a | ERepeat _ a | EParen _ a => nodes (g + 1) a
  | EBinary _ l _ r | EExtract _ l _ r | ENamespace _ l _ r =>
    nodes g l ++ nodes (g + wide l + 1) r
  | EFunction _ _ ps b => nodes (g + 1) ps ++ nodes (g + 1 + wide ps) b
  | EParams _ l | EArgs _ _ _ l => row nodes 1 (g + 1) l
  | EBraced _ l => row nodes 0 (g + 1) l
  | EParam _ a d => nodes g a ++ match d with Some x => nodes (g + wide a) x | None => [] end
  | EIf _ c t el =>
    nodes (g + 2) c ++ nodes (g + 3 + wide c) t ++
    match el with Some x => nodes (g + 3 + wide c + wide t) x | None => [] end
  | EFor _ v s b =>
    nodes (g + 2) v ++ nodes (g + 3 + wide v) s ++ nodes (g + 4 + wide v + wide s) b
  | EWhile _ c b => nodes (g + 2) c ++ nodes (g + 3 + wide c) b
  | ECall _ f a => nodes g f ++ nodes (g + wide f) a
  | EArg _ nm v _ =>
    match nm with Some x => nodes g x | None => [] end ++
    match v with Some x => nodes (g + List.length (opt_list etokens nm)) x | None => [] end
  | ENameClause _ a => nodes g a
  end.
Definition bom_tokens (r : root) : nat := match r_bom r with Some _ => 1 | None => 0 end.
Definition root_nodes (r : root) : list (nat * expr) := row nodes 0 (bom_tokens r) (r_exprs r).

(** [e], with [g] tokens before it, stands at the leaves [own], bytes [s] to
    [f], after the leaves [before]. *)
Definition spot (src : text) (t : ts) (g : nat) (e : expr) (before own : list leaf) (s f : nat) : Prop :=
  (exists after, leaves t = before ++ own ++ after) /\ List.length (token_leaves before) = g /\
  bounded own s f /\ tokens_at src own = etokens e.

(** The end of the last token, 0 if there is none. *)
Definition last_end (ls : list leaf) : nat :=
  fold_left (fun p l => match l with LTok _ _ e => e | LCom _ _ => p end) ls 0.

(** Line breaks in what stands between a token and the next one: white space
    and comments.  Those before the first comment count, a comment that ends
    the line of the first token aside; [first]: there is no token before. *)
Definition lf_count (x : text) : nat := List.length (filter (fun c => (c =? LF)%N) x).
Fixpoint up_to_comment (x : text) : text :=
  match x with [] => [] | c :: r => if (c =? 35)%N then [] else c :: up_to_comment r end.
Fixpoint from_line_end (x : text) : text :=
  match x with [] => [] | c :: r => if (c =? LF)%N then x else from_line_end r end.
Definition breaks_in (first : bool) (gap : text) : nat :=
  lf_count (up_to_comment (if first then gap else from_line_end gap)).
Definition no_token (ls : list leaf) : bool :=
  forallb (fun l => match l with LTok _ _ _ => false | LCom _ _ => true end) ls.

(** A comment in the source.  [lines_before], [lines_after]: the line breaks up
    to the tokens or comments next to it. *)
Definition last_stop (ls : list leaf) : nat := fold_left (fun _ l => leaf_end l) ls 0.
Definition next_start (src : text) (ls : list leaf) : nat :=
  match ls with l :: _ => leaf_start l | [] => blen src end.
Fixpoint next_token (src : text) (ls : list leaf) : nat :=
  match ls with
  | LTok _ s _ :: _ => s
  | LCom _ _ :: r => next_token src r
  | [] => blen src
  end.
Definition comment_spot (src : text) (t : ts) (c : text) (lines_before lines_after s f : nat) : Prop :=
  exists before after gap x y,
    leaves t = before ++ LCom s f :: after /\ slice s f src = Some c /\
    slice (last_end before) (next_token src after) src = Some gap /\
    slice (last_stop before) s src = Some x /\ slice f (next_start src after) src = Some y /\
    (cr_paired gap -> lines_before = lf_count x /\ lines_after = lf_count y).

(** What the formatter holds to be the text of a node, the line breaks before
    it, the line breaks around its comments and those that lie inside it. *)
Definition comment_right (src : text) (t : ts) (inside : nat -> Prop) (c : comment) : Prop :=
  exists s f, comment_spot src t (c_text c) (c_before c) (c_after c) s f /\
    (c_within c = true <-> inside s).
Definition own_notes (n : notes) : list comment := n_lead n ++ n_dang n ++ n_trail n.
Definition node_right (src : text) (t : ts) (g : nat) (e : expr) : Prop :=
  let n := notes_of e in
  etokens e = [] /\ n_src n = [] /\ n_newline n = false /\ n_lines n = 0 /\
    Forall (comment_right src t (fun _ => False)) (own_notes n) \/
  exists before own s f gap, spot src t g e before own s f /\
    slice s f src = Some (n_src n) /\
    slice (last_end before) s src = Some gap /\
    (cr_paired gap ->
     (n_newline n = true <-> In LF gap) /\
     n_lines n = breaks_in (no_token before) gap /\
     match e with EElse _ newline _ => newline = true <-> In LF gap | _ => True end) /\
    Forall (comment_right src t (fun i => s < i /\ i < f)) (own_notes n).

(** What stands between the tokens of the source: [gap] before the token
    number [g], of kind [k]. *)
Definition source_gap (src : text) (t : ts) (g : nat) (k : kind) (gap : text) : Prop :=
  exists before s f after, leaves t = before ++ LTok k s f :: after /\
    List.length (token_leaves before) = g /\ slice (last_end before) s src = Some gap.

(** The line breaks before the commas after arguments.  [g]: the tokens before
    the first one. *)
Definition comma_right (src : text) (t : ts) (h : nat) (e : expr) : Prop :=
  match e with
  | EArg _ _ _ lines =>
    exists gap, source_gap src t h COMMA gap /\ (cr_paired gap -> lines = breaks_in (h =? 0) gap)
  | _ => False
  end.
Fixpoint commas_right (src : text) (t : ts) (g : nat) (l : list expr) : Prop :=
  match l with
  | [] => True
  | x :: r =>
    match r with
    | [] => True
    | _ => let h := g + List.length (etokens x) in
           comma_right src t h x /\ commas_right src t (h + 1) r
    end
  end.

(** * The output *)

(** Expressions one below the other ([spaced]), with as many empty lines
    before each as in the source, [cap] at most.  [g]: the tokens before the
    first one. *)
Section Spaced.
Variables (src : text) (t : ts).
Variable shows : bool -> expr -> list piece -> Prop.
Variable cap : nat.
Inductive spaced_at : nat -> list expr -> list piece -> Prop :=
| spaced_at_one g e b : block b -> shows true e b -> spaced_at g [e] b
| spaced_at_cons g e b e' l out k gap lines :
    block b -> shows false e b ->
    source_gap src t (g + List.length (etokens e)) k gap ->
    (cr_paired gap -> lines = breaks_in false gap) ->
    spaced_at (g + List.length (etokens e)) (e' :: l) out ->
    spaced_at g (e :: e' :: l) (b ++ repeat PNewline (1 + Nat.min cap (lines - 1)) ++ out).
End Spaced.

(** A line break in the source before the token number [g]. *)
Definition line_break (src : text) (t : ts) (g : nat) : Prop :=
  exists k gap, source_gap src t g k gap /\ cr_paired gap /\ In LF gap.
