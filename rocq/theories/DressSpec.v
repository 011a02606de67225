(** The comments above an expression and behind it. *)
From Coq Require Import List Arith Bool NArith.
From Verif Require Import Text SettingsModel SyntaxKind FmtTree IrModel FmtSpec FmtPathSpec.
Import ListNotations.

(** Comments on lines of their own above [rest]; an empty line after those
    that have one in the source. *)
Fixpoint above (cs : list comment) (rest : list piece) : list piece :=
  match cs with
  | [] => rest
  | c :: r => PWord (WComment (c_text c)) :: repeat PNewline (if 1 <? c_after c then 2 else 1) ++ above r rest
  end.
(** Comments behind something: on its last line, until one of them is on a
    line of its own in the source ([lines]: line breaks seen). *)
Fixpoint behind (lines : nat) (cs : list comment) : list piece :=
  match cs with
  | [] => []
  | c :: r =>
    (if lines + c_before c =? 0 then [PSpace] else repeat PNewline (if 1 <? c_before c then 2 else 1))
      ++ PWord (WComment (c_text c)) :: behind (lines + c_before c) r
  end.

(** No comments on the operand of a unary operator that ends [e], and none
    that dangle there. *)
Fixpoint calm (e : expr) : Prop :=
  match e with
  | ELeaf n _ _ | EParen n _ => n_dang n = []
  | EUnary n _ a =>
    n_dang n = [] /\ n_lead (notes_of a) = [] /\ n_dang (notes_of a) = [] /\ n_trail (notes_of a) = [] /\ calm a
  | EBinary n _ _ r | EExtract n _ _ r | ENamespace n _ _ r => n_dang n = [] /\ calm r
  | EFunction n _ _ b | EFor n _ _ b | EWhile n _ b | ERepeat n b | EElse n _ b => n_dang n = [] /\ calm b
  | EIf n _ t None => n_dang n = [] /\ calm t
  | EIf n _ _ (Some el) => n_dang n = [] /\ calm el
  | ECall n _ a => n_dang n = [] /\ calm a
  | _ => True
  end.

(** The comments of a statement that are printed around it: not those inside
    of it if it is printed as it is. *)
Definition outer (cs : list comment) : list comment := filter (fun c => negb (c_within c)) cs.
Definition dressed (o : format_options) (p : pos) (e : expr) (b : list piece) : Prop :=
  exists lead trail core,
    (lead = n_lead (notes_of e) /\ trail = n_trail (notes_of e) \/
     skip_asked o p e /\ lead = outer (n_lead (notes_of e)) /\ trail = outer (n_trail (notes_of e))) /\
    block core /\ b = above lead core /\
    (calm e -> exists body, block body /\ core = body ++ behind 0 trail).
(** The text of a statement, with its comments around it. *)
Definition shows_dressed (o : format_options) (effect : bool) (e : expr) (b : list piece) : Prop :=
  shows_stmt o effect e b /\ dressed o (p_stmt effect) e b.

(** Comments on lines of their own. *)
Inductive heads : list text -> list piece -> Prop :=
| heads_none : heads [] []
| heads_line x l b k : 1 <= k <= 2 -> heads l b ->
    heads (x :: l) (PWord (WComment x) :: repeat PNewline k ++ b).
(** Comments behind something: on its line, or on lines of their own ([true]). *)
Inductive follows : list (text * bool) -> list piece -> Prop :=
| follows_none : follows [] []
| follows_line x l b : follows l b -> follows ((x, false) :: l) (PSpace :: PWord (WComment x) :: b)
| follows_below x l b k : 1 <= k <= 2 -> follows l b ->
    follows ((x, true) :: l) (repeat PNewline k ++ PWord (WComment x) :: b).
Definition line_start (pre : list piece) : Prop := pre = [] \/ exists p, pre = p ++ [PNewline].
Definition line_end (post : list piece) : Prop := post = [] \/ exists p, post = PNewline :: p.
(** The tokens of the expressions [es], tidied. *)
Definition shows_tokens (o : format_options) (p : pos) (es : list expr) (b : list piece) : Prop :=
  exists es', Forall2 (tidy o p) es es' /\ ptokens b = flat_map etokens es'.
