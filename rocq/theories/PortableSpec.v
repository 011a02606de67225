(** Vocabulary for C59: where [else] stands in the printed file.  If statements
    are braced so that they can be copied to any place and still parse
    (docs/formatter.qmd, "Portability"): R reads an [else] at the start of a
    line only inside braces or parentheses. *)
From Coq Require Import List NArith.
From Verif Require Import Text SyntaxKind FmtTree IrModel FmtSpec.
Import ListNotations.

(** Blanks on a line. *)
Definition blank (p : piece) : Prop := p = PSpace \/ exists n, p = PWord (WPad n).
(** Code, as opposed to comments and blanks. *)
Definition code_word (w : word) : Prop :=
  match w with WTok _ | WVerb _ => True | WComment _ | WPad _ | WBreak => False end.

(** Every [else] follows code on the same line. *)
Definition else_follows_code (out : list piece) : Prop :=
  forall pre t post, out = pre ++ PWord (WTok t) :: post -> t_kind t = ELSE_KW ->
  exists before w gap,
    pre = before ++ PWord w :: gap /\ code_word w /\ gap <> [] /\ Forall blank gap.

(** The tokens that a node holds besides the fixed ones of its syntax. *)
Definition own_tokens (e : expr) : list token :=
  match e with
  | ELeaf _ _ ts => ts
  | EUnary _ op _ | EBinary _ _ op _ | EExtract _ _ op _ | ENamespace _ _ op _ => [op]
  | EFunction _ name _ _ => [name]
  | _ => []
  end.
(** Names and operators are not [else], no comment stands before an [else] or
    at the operand of a unary operator, and comments dangle only inside
    brackets. *)
Definition else_free (e : expr) : Prop :=
  Forall (fun t => t_kind t <> ELSE_KW) (own_tokens e) /\
  match e with
  | EElse n _ _ => n_lead n = [] /\ n_dang n = []
  | EUnary n _ a =>
    n_dang n = [] /\
    n_lead (notes_of a) ++ n_dang (notes_of a) ++ n_trail (notes_of a) = []
  | EParams _ _ | EBraced _ _ | EArgs _ _ _ _ => True
  | _ => n_dang (notes_of e) = []
  end.
Definition root_else_free (r : root) : Prop :=
  opt_all (fun t => t_kind t <> ELSE_KW) (r_bom r) /\
  all_of (everywhere else_free) (r_exprs r).

(** Of a file that is parsed, this is left to ask: names and operators are not
    [else], no comment stands inside a name, number or string, and none at the
    operand of a unary operator. *)
Definition else_plain (e : expr) : Prop :=
  Forall (fun t => t_kind t <> ELSE_KW) (own_tokens e) /\
  match e with
  | ELeaf n _ _ => n_dang n = []
  | EUnary _ _ a => n_lead (notes_of a) ++ n_dang (notes_of a) ++ n_trail (notes_of a) = []
  | _ => True
  end.
Definition root_else_plain (r : root) : Prop :=
  opt_all (fun t => t_kind t <> ELSE_KW) (r_bom r) /\
  all_of (everywhere else_plain) (r_exprs r).

(** No comment is attached in front of an else clause, and inside nodes
    comments are attached only to brackets (and tokens). *)
Definition well_attached (e : expr) : Prop :=
  match e with
  | EElse n _ _ => n_lead n = [] /\ n_dang n = []
  | ELeaf _ _ _ | EParams _ _ | EBraced _ _ | EArgs _ _ _ _ => True
  | _ => n_dang (notes_of e) = []
  end.
