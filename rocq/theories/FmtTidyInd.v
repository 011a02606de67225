(** Induction over tidied programs. *)
From Coq Require Import List Arith Bool NArith.
From Verif Require Import Text SettingsModel SyntaxKind DirectiveModel FmtTree IrModel FmtSpec.
Import ListNotations.

Section TidyInd.
Variable o : format_options.
Variable P : pos -> expr -> expr -> Prop.
Variable PI : bool -> expr -> expr -> Prop.
Variable PE : bool -> option expr -> option expr -> Prop.
Variable PB : bool -> expr -> expr -> Prop.

Hypothesis Hskip : forall p e, skip_asked o p e -> P p e e.
Hypothesis Hleaf : forall p n k ts ts',
  Forall2 same_token ts ts' -> P p (ELeaf n k ts) (ELeaf n k ts').
Hypothesis Hunary : forall p n op op' a a',
  same_token op op' -> P (p_unary op) a a' -> P p (EUnary n op a) (EUnary n op' a').
Hypothesis Hbinary : forall p n l l' op op' r r' table,
  restyled (o_assignment_style o) (q_eq p) op op' ->
  (table = true -> assignment_op (t_kind op) = true /\ asked DTable p n) ->
  P (p_operand (q_eq p) op false) l l' -> P (p_operand (q_eq p) op table) r r' ->
  tidy o (p_operand (q_eq p) op false) l l' -> tidy o (p_operand (q_eq p) op table) r r' ->
  P p (EBinary n l op r) (EBinary n l' op' r').
Hypothesis Hextract : forall p n l l' op op' r r',
  same_token op op' -> P p_plain l l' -> P p_plain r r' ->
  P p (EExtract n l op r) (EExtract n l' op' r').
Hypothesis Hnamespace : forall p n l l' op op' r r',
  same_token op op' -> P p_plain l l' -> P p_plain r r' ->
  P p (ENamespace n l op r) (ENamespace n l' op' r').
Hypothesis Hfunction : forall p n name name' ps ps' w b b',
  same_token name name' -> P p_plain ps ps' -> PB w b b' ->
  (n_newline (notes_of b) = true -> w = true) ->
  P p (EFunction n name ps b) (EFunction n name' ps' b').
Hypothesis Hparams : forall p n l l', Forall2 (P p_plain) l l' -> P p (EParams n l) (EParams n l').
Hypothesis Hparam : forall p n a a' d d',
  P p_plain a a' -> opt_rel (P p_plain) d d' -> P p (EParam n a d) (EParam n a' d').
Hypothesis Hdefault : forall p n v v', P p_plain v v' -> P p (EDefault n v) (EDefault n v').
Hypothesis Hif : forall p w e e',
  PI w e e' -> (q_effect p = true -> w = true) -> P p e e'.
Hypothesis Hfor : forall p n v v' s s' b b',
  P p_plain v v' -> P p_plain s s' -> PB true b b' -> P p (EFor n v s b) (EFor n v' s' b').
Hypothesis Hwhile : forall p n c c' b b',
  P p_plain c c' -> PB true b b' -> P p (EWhile n c b) (EWhile n c' b').
Hypothesis Hrepeat : forall p n b b', PB true b b' -> P p (ERepeat n b) (ERepeat n b').
Hypothesis Hbraced : forall p n l l',
  stmts_rel (fun effect => P (p_stmt effect)) l l' -> P p (EBraced n l) (EBraced n l').
Hypothesis Hparen : forall p n b b', P p_body b b' -> P p (EParen n b) (EParen n b').
Hypothesis Hcall : forall p n f f' args args' table,
  (table = true -> table_asked o p n f) ->
  P p_plain f f' -> P (mkpos false false false table) args args' ->
  P p (ECall n f args) (ECall n f' args').
Hypothesis Hargs : forall p n k rc l l',
  Forall2 (P p_item) l l' -> P p (EArgs n k rc l) (EArgs n k rc l').
Hypothesis Hargs_table : forall p n rc l,
  q_table p = true -> P p (EArgs n KCall rc l) (EArgs n KCall rc l).
Hypothesis Harg : forall p n nm nm' v v' sl,
  opt_rel (P p_plain) nm nm' -> opt_rel (P p_plain) v v' ->
  P p (EArg n nm v sl) (EArg n nm' v' sl).
Hypothesis Hname : forall p n nm nm', P p_plain nm nm' -> P p (ENameClause n nm) (ENameClause n nm').
Hypothesis Iif : forall w n c c' t t' el el',
  P p_plain c c' -> PB w t t' -> PE w el el' ->
  (if_forced t el -> w = true) ->
  PI w (EIf n c t el) (EIf n c' t' el').
Hypothesis Enone : forall w, PE w None None.
Hypothesis Eif : forall w n nl a a',
  is_if a = true -> PI w a a' -> PE w (Some (EElse n nl a)) (Some (EElse n nl a')).
Hypothesis Ebody : forall w n nl a a',
  is_if a = false -> PB w a a' -> PE w (Some (EElse n nl a)) (Some (EElse n nl a')).
Hypothesis Bbraced : forall w b b', is_braced b = true -> P p_body b b' -> PB w b b'.
Hypothesis Bwrap : forall b b',
  is_braced b = false -> P p_body b b' -> PB true b (add_braces b').
Hypothesis Bplain : forall b b', is_braced b = false -> P p_body b b' -> PB false b b'.

Fixpoint tidy_ind' p e e' (H : tidy o p e e') {struct H} : P p e e' :=
  let all := fix all p l l' (F : Forall2 (tidy o p) l l') : Forall2 (P p) l l' :=
    match F with
    | Forall2_nil _ => Forall2_nil _
    | Forall2_cons x y h t => Forall2_cons x y (tidy_ind' _ _ _ h) (all p _ _ t)
    end in
  let stmts := fix stmts l l' (F : stmts_rel (fun f => tidy o (p_stmt f)) l l') :
      stmts_rel (fun f => P (p_stmt f)) l l' :=
    match F with
    | stmts_nil _ => stmts_nil _
    | stmts_cons _ a b l l' h t => stmts_cons _ a b l l' (tidy_ind' _ _ _ h) (stmts _ _ t)
    end in
  let opt p x x' (F : opt_rel (tidy o p) x x') : opt_rel (P p) x x' :=
    match F with
    | opt_none _ => opt_none _
    | opt_some _ a b h => opt_some _ a b (tidy_ind' _ _ _ h)
    end in
  match H with
  | T_skip _ p e h => Hskip p e h
  | T_leaf _ p n k ts ts' h => Hleaf p n k ts ts' h
  | T_unary _ p n op op' a a' h h1 => Hunary p n op op' a a' h (tidy_ind' _ _ _ h1)
  | T_binary _ p n l l' op op' r r' table h h0 h1 h2 =>
    Hbinary p n l l' op op' r r' table h h0 (tidy_ind' _ _ _ h1) (tidy_ind' _ _ _ h2) h1 h2
  | T_extract _ p n l l' op op' r r' h h1 h2 =>
    Hextract p n l l' op op' r r' h (tidy_ind' _ _ _ h1) (tidy_ind' _ _ _ h2)
  | T_namespace _ p n l l' op op' r r' h h1 h2 =>
    Hnamespace p n l l' op op' r r' h (tidy_ind' _ _ _ h1) (tidy_ind' _ _ _ h2)
  | T_function _ p n name name' ps ps' w b b' h h1 h2 h3 =>
    Hfunction p n name name' ps ps' w b b' h (tidy_ind' _ _ _ h1) (tidy_body_ind' _ _ _ h2) h3
  | T_params _ p n l l' h => Hparams p n l l' (all p_plain l l' h)
  | T_param _ p n a a' d d' h1 h2 =>
    Hparam p n a a' d d' (tidy_ind' _ _ _ h1) (opt p_plain d d' h2)
  | T_default _ p n v v' h => Hdefault p n v v' (tidy_ind' _ _ _ h)
  | T_if _ p w e e' h1 h2 => Hif p w e e' (tidy_if_ind' _ _ _ h1) h2
  | T_for _ p n v v' s s' b b' h1 h2 h3 =>
    Hfor p n v v' s s' b b' (tidy_ind' _ _ _ h1) (tidy_ind' _ _ _ h2) (tidy_body_ind' _ _ _ h3)
  | T_while _ p n c c' b b' h1 h2 =>
    Hwhile p n c c' b b' (tidy_ind' _ _ _ h1) (tidy_body_ind' _ _ _ h2)
  | T_repeat _ p n b b' h => Hrepeat p n b b' (tidy_body_ind' _ _ _ h)
  | T_braced _ p n l l' h => Hbraced p n l l' (stmts l l' h)
  | T_paren _ p n b b' h => Hparen p n b b' (tidy_ind' _ _ _ h)
  | T_call _ p n f f' args args' table h0 h1 h2 =>
    Hcall p n f f' args args' table h0 (tidy_ind' _ _ _ h1) (tidy_ind' _ _ _ h2)
  | T_args _ p n k rc l l' h => Hargs p n k rc l l' (all p_item l l' h)
  | T_args_table _ p n rc l h => Hargs_table p n rc l h
  | T_arg _ p n nm nm' v v' sl h1 h2 =>
    Harg p n nm nm' v v' sl (opt p_plain nm nm' h1) (opt p_plain v v' h2)
  | T_name _ p n nm nm' h => Hname p n nm nm' (tidy_ind' _ _ _ h)
  end
with tidy_if_ind' w e e' (H : tidy_if o w e e') {struct H} : PI w e e' :=
  match H with
  | TI_if _ w n c c' t t' el el' h1 h2 h3 h4 =>
    Iif w n c c' t t' el el' (tidy_ind' _ _ _ h1) (tidy_body_ind' _ _ _ h2)
      (tidy_else_ind' _ _ _ h3) h4
  end
with tidy_else_ind' w e e' (H : tidy_else o w e e') {struct H} : PE w e e' :=
  match H with
  | TE_none _ w => Enone w
  | TE_if _ w n nl a a' h h1 => Eif w n nl a a' h (tidy_if_ind' _ _ _ h1)
  | TE_body _ w n nl a a' h h1 => Ebody w n nl a a' h (tidy_body_ind' _ _ _ h1)
  end
with tidy_body_ind' w e e' (H : tidy_body o w e e') {struct H} : PB w e e' :=
  match H with
  | TB_braced _ w b b' h h1 => Bbraced w b b' h (tidy_ind' _ _ _ h1)
  | TB_wrap _ b b' h h1 => Bwrap b b' h (tidy_ind' _ _ _ h1)
  | TB_plain _ b b' h h1 => Bplain b b' h (tidy_ind' _ _ _ h1)
  end.
End TidyInd.
