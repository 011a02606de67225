(** Specification of document synchronisation: the editor's side. *)
From Coq Require Import List NArith ZArith Bool Arith.
From Verif Require Import Text LineEndingModel LineEndingSpec LineIndexModel LineIndexSpec DocsModel.
Import ListNotations.

(** * A batch of changes, one at a time *)

(** One change against a line table of the current text. *)
Definition one_change (enc : encoding) (t : text) (c : change) : option text :=
  match c_range c with
  | None => Some (normalize (c_text c))
  | Some r =>
    match text_range enc (line_index_new t) r with
    | Val (s, e) => replace_range t s e (normalize (c_text c))
    | _ => None
    end
  end.
Fixpoint one_by_one (enc : encoding) (t : text) (cs : list change) : option text :=
  match cs with
  | [] => Some t
  | c :: r => match one_change enc t c with None => None | Some t' => one_by_one enc t' r end
  end.

(** The range does not end on a line above its start. *)
Definition ordered (c : change) : Prop :=
  match c_range c with None => True | Some r => pos_line (r_start r) <= pos_line (r_end r) end.

(** * The editor's document *)

(** Position after [pre] under the protocol's three line ends: LF, CR LF and CR. *)
Fixpoint editor_position (enc : encoding) (pre : text) (line col : nat) : position :=
  match pre with
  | [] => {| pos_line := line; pos_char := col |}
  | c :: r =>
    if (c =? LF)%N then editor_position enc r (line + 1) 0
    else if (c =? CR)%N then
      match r with
      | d :: r' => if (d =? LF)%N then editor_position enc r' (line + 1) 0
                   else editor_position enc r (line + 1) 0
      | [] => {| pos_line := line + 1; pos_char := 0 |}
      end
    else editor_position enc r line (col + units1 enc c)
  end.

(** The editor replaces the range from after [pre] to after [pre ++ mid] by [x]. *)
Inductive editor_change (enc : encoding) : text -> change -> text -> Prop :=
| EditRange : forall pre mid post x,
    editor_change enc (pre ++ mid ++ post)
      {| c_range := Some {| r_start := editor_position enc pre 0 0;
                            r_end := editor_position enc (pre ++ mid) 0 0 |};
         c_text := x |}
      (pre ++ x ++ post)
| EditFull : forall t x, editor_change enc t {| c_range := None; c_text := x |} x.

(** Every CR is the first half of a CR LF. *)
Inductive paired : text -> Prop :=
| PNil : paired []
| PChar : forall c r, c <> CR -> paired r -> paired (c :: r)
| PEnd : forall r, paired r -> paired (CR :: LF :: r).

(** The same, for edits that keep CR LF pairs intact and introduce no lone CR. *)
Inductive tidy_change (enc : encoding) : text -> change -> text -> Prop :=
| TidyRange : forall pre mid post x,
    paired pre -> paired mid -> paired post -> paired x ->
    tidy_change enc (pre ++ mid ++ post)
      {| c_range := Some {| r_start := editor_position enc pre 0 0;
                            r_end := editor_position enc (pre ++ mid) 0 0 |};
         c_text := x |}
      (pre ++ x ++ post)
| TidyFull : forall t x, paired x -> tidy_change enc t {| c_range := None; c_text := x |} x.

Inductive tidy_changes (enc : encoding) : text -> list change -> text -> Prop :=
| TCNil : forall t, tidy_changes enc t [] t
| TCCons : forall t c t' cs t'', tidy_change enc t c t' -> tidy_changes enc t' cs t'' ->
    tidy_changes enc t (c :: cs) t''.

(** The editor's open documents with their versions, and its side of a history. *)
Definition editor := text -> option (text * Z).
Definition editor_set (e : editor) (u : text) (d : option (text * Z)) : editor :=
  fun v => if text_eqb v u then d else e v.

Inductive editor_run (enc : encoding) : editor -> list doc_event -> editor -> Prop :=
| ERNil : forall e, editor_run enc e [] e
| EROpen : forall e u v t h e', paired t ->
    editor_run enc (editor_set e u (Some (t, v))) h e' ->
    editor_run enc e (EvOpen u v t :: h) e'
| ERChange : forall e u v v' t t' cs h e',
    e u = Some (t, v) -> (v <= v')%Z -> tidy_changes enc t cs t' ->
    editor_run enc (editor_set e u (Some (t', v'))) h e' ->
    editor_run enc e (EvChange u v' cs :: h) e'
| ERClose : forall e u h e',
    editor_run enc (editor_set e u None) h e' ->
    editor_run enc e (EvClose u :: h) e'.

(** The server document [d] is in step with the editor's text [t] at version [v]. *)
Definition in_step {T} (parse : text -> T) (enc : encoding) (d : document T) (t : text) (v : Z) : Prop :=
  d_contents d = normalize t /\ d_line_index d = line_index_new (normalize t) /\
  d_parse d = parse (normalize t) /\ d_version d = Some v /\ d_enc d = enc.
