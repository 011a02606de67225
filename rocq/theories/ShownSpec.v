(** Comments above a node of the output, behind it and in its brackets. *)
From Coq Require Import List Arith Bool NArith.
From Verif Require Import Text SettingsModel SyntaxKind FmtTree IrModel FmtSpec FmtPathSpec DressSpec SourceSpec PlaceSpec BodySpec BesideSpec.
Import ListNotations.

(** The chains that begin on the left of an operator of a chain, each the left
    operand of the one before. *)
Inductive inner_chain : pos -> expr -> pos -> expr -> Prop :=
| IC_here p n l op r : chain_op (t_kind op) = true ->
    inner_chain p (EBinary n l op r) p (EBinary n l op r)
| IC_left p n l op r p' x : chain_op (t_kind op) = true ->
    inner_chain (p_operand (q_eq p) op false) l p' x -> inner_chain p (EBinary n l op r) p' x.

(** The nodes with comments that are laid out at the place [p]: those of
    [in_file], arguments (not of tables), and the chains in a chain. *)
Inductive laid_out (o : format_options) (r : root) : pos -> expr -> Prop :=
| laid_node p e : in_file o r p e -> sort_of e <> SoElse -> laid_out o r p e
| laid_argument p n k rc l x : in_file o r p (EArgs n k rc l) -> ~ skip_asked o p (EArgs n k rc l) ->
    ~ table_args p (EArgs n k rc l) -> In x l -> (hole x = true -> n_lead (notes_of x) <> []) ->
    laid_out o r p_item x
| laid_chain p n l op x p' y : in_file o r p (EBinary n l op x) -> ~ skip_asked o p (EBinary n l op x) ->
    chain_op (t_kind op) = true -> inner_chain (p_operand (q_eq p) op false) l p' y ->
    laid_out o r p' y.

(** [l] is among [m], in order. *)
Inductive among : list text -> list text -> Prop :=
| among_none m : among [] m
| among_skip x l m : among l m -> among l (x :: m)
| among_take x l m : among l m -> among (x :: l) (x :: m).

(** The comments [l] above the text of [e]: there are only comments between
    them and it, and it begins on a new line. *)
Definition shown_above (o : format_options) (p : pos) (e : expr) (l : list text) (out : list piece) : Prop :=
  exists pre h core post, out = pre ++ h ++ core ++ post /\
    ptokens h = [] /\ line_start h /\ among l (pcomments h) /\ shows_tokens o p [e] core.
(** Behind it: at the end of the line where it ends, or below. *)
Definition shown_behind (o : format_options) (p : pos) (e : expr) (l : list text) (out : list piece) : Prop :=
  exists pre core q h post, out = pre ++ core ++ q ++ h ++ post /\
    shows_tokens o p [e] core /\ ~ In PNewline q /\ ptokens h = [] /\
    exists a b, pcomments h = a ++ l ++ b.
(** Between the brackets, without any token. *)
Definition shown_inside (opening closing : token) (l : list text) (out : list piece) : Prop :=
  exists pre h post, out = pre ++ PWord (WTok opening) :: h ++ PWord (WTok closing) :: post /\
    ptokens h = [] /\ among l (pcomments h).

(** Comments between [left] and [right] in the output, as in [shared]. *)
Definition shared_shown (o : format_options) (r : root) (left right : option expr) (l : list (text * bool))
    (out : list piece) : Prop :=
  let above x l := forall p, laid_out o r p x -> l <> [] -> shown_above o p x l out in
  let behind x l := forall p, laid_out o r p x -> l <> [] -> shown_behind o p x l out in
  match left, right with
  | Some x, Some y => behind x (end_of_line l) /\ above y (own_line l)
  | Some x, None => behind x (all_comments l)
  | None, Some y => above y (all_comments l)
  | None, None => False
  end.
(** Comments at the start of a body, as in [body_notes] and
    [alternative_notes]. *)
Definition start_shown (o : format_options) (r : root) (b : expr) (l : list text) (out : list piece) : Prop :=
  match b with
  | EBraced _ [] => forall p, in_file o r p b -> ~ skip_asked o p b -> shown_inside tLCURLY tRCURLY l out
  | EBraced _ (e :: _) => forall p, laid_out o r p e -> l <> [] -> shown_above o p e l out
  | _ => forall p, laid_out o r p b -> l <> [] -> shown_above o p b l out
  end.
Definition alternative_shown (o : format_options) (r : root) (a : expr) (l : list text) (out : list piece) : Prop :=
  match a with EIf _ _ t _ => start_shown o r t l out | _ => start_shown o r a l out end.
(** Where an argument is left out ([a]: the arguments before it), as in
    [hole_notes]. *)
Definition hole_shown (o : format_options) (r : root) (a : list expr) (h : expr) (l : list text) (out : list piece) : Prop :=
  let above := laid_out o r p_item h -> l <> [] -> shown_above o p_item h l out in
  match last_of a with
  | Some x => if hole x then above else laid_out o r p_item x -> l <> [] -> shown_behind o p_item x l out
  | None => above
  end.

(** What stands directly in a node, and anywhere in it. *)
Definition branches (e : expr) : list expr :=
  match e with
  | ELeaf _ _ _ => []
  | EUnary _ _ a | EDefault _ a | EElse _ _ a | ERepeat _ a | EParen _ a | ENameClause _ a => [a]
  | EBinary _ l _ r | EExtract _ l _ r | ENamespace _ l _ r => [l; r]
  | EFunction _ _ a b | EWhile _ a b | ECall _ a b => [a; b]
  | EParams _ l | EBraced _ l | EArgs _ _ _ l => l
  | EParam _ a d => a :: match d with Some d => [d] | None => [] end
  | EIf _ c t el => c :: t :: match el with Some x => [x] | None => [] end
  | EFor _ v s b => [v; s; b]
  | EArg _ nm v _ => match nm with Some x => [x] | None => [] end ++ match v with Some x => [x] | None => [] end
  end.
Inductive under : expr -> expr -> Prop :=
| under_here x : under x x
| under_below e c x : In c (branches e) -> under c x -> under e x.

(** Inside a node that is copied, or whose arguments are laid out as a table,
    or inside [{{ }}]. *)
Definition hidden (o : format_options) (r : root) (x : expr) : Prop :=
  exists p e c, in_file o r p e /\
    (skip_asked o p e \/ table_args p e \/ exists n l, e = EBraced n l /\ curly_curly l) /\
    In c (branches e) /\ under c x.
