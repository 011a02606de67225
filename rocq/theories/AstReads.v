(** [typed] as a relation, one rule per kind of node. *)
From Coq Require Import List Arith Bool NArith Lia.
From Verif Require Import Text TextFacts SyntaxKind ParseModel ParseSpec FmtTree FmtSpec
  CommentsModel AstModel.
Import ListNotations.

Lemma is_tok_eq t x : is_tok t x = true -> token_of x = t.
Proof.
  unfold is_tok, token_of, tk. rewrite andb_true_iff. intros [A B].
  apply kind_eqb_eq in A. apply text_eqb_eq in B. destruct t as [k y]. cbn in *. subst. reflexivity.
Qed.
Lemma sort_eqb_eq a b : sort_eqb a b = true -> a = b.
Proof. destruct a, b; intros H; try discriminate H; reflexivity. Qed.
Lemma sorted_some s x e : sorted s x = Some e -> x = Some e /\ sort_of e = s.
Proof.
  unfold sorted. destruct x as [y|]; [|discriminate]. destruct (sort_eqb (sort_of y) s) eqn:E; [|discriminate].
  intros H. inversion H. subst. split; [reflexivity|]. apply sort_eqb_eq, E.
Qed.
Lemma check_some {A} b (x : option A) y : check b x = Some y -> b = true /\ x = Some y.
Proof. destruct b; cbn; [auto|discriminate]. Qed.
Lemma args_of_kind_eq k e : args_of_kind k e = true -> exists n rc l, e = EArgs n k rc l.
Proof.
  destruct e; cbn; try discriminate. intros H. exists n, rc, items.
  destruct k0, k; cbn in H; try discriminate H; reflexivity.
Qed.

Section Reads.
Variable pl : list placement.
Notation note := (note pl).
Notation typed := (typed pl).

Inductive reads : path -> nat -> syn -> expr -> Prop :=
| RD_leaf p g k cs ts :
    form_of k = FoLeaf -> cs <> [] -> leaf_tokens cs = Some ts ->
    reads p g (Node k cs) (ELeaf (note p g (Node k cs)) k ts)
| RD_unary p g k op a a' :
    form_of k = FoUnary -> reads (1 :: p) (g + 1) a a' -> sort_of a' = SoExpr ->
    reads p g (Node k [Tok op; a]) (EUnary (note p g (Node k [Tok op; a])) (token_of op) a')
| RD_binary p g k l l' op r r' :
    form_of k = FoBinary ->
    reads (0 :: p) g l l' -> sort_of l' = SoExpr ->
    reads (2 :: p) (g + width l + 1) r r' -> sort_of r' = SoExpr ->
    reads p g (Node k [l; Tok op; r]) (EBinary (note p g (Node k [l; Tok op; r])) l' (token_of op) r')
| RD_extract p g k l l' op r r' :
    form_of k = FoExtract ->
    reads (0 :: p) g l l' -> sort_of l' = SoExpr ->
    reads (2 :: p) (g + width l + 1) r r' -> sort_of r' = SoExpr ->
    reads p g (Node k [l; Tok op; r]) (EExtract (note p g (Node k [l; Tok op; r])) l' (token_of op) r')
| RD_namespace p g k l l' op r r' :
    form_of k = FoNamespace ->
    reads (0 :: p) g l l' -> sort_of l' = SoExpr ->
    reads (2 :: p) (g + width l + 1) r r' -> sort_of r' = SoExpr ->
    reads p g (Node k [l; Tok op; r]) (ENamespace (note p g (Node k [l; Tok op; r])) l' (token_of op) r')
| RD_function p g k kw ps ps' b b' :
    form_of k = FoFunction ->
    reads (1 :: p) (g + 1) ps ps' -> sort_of ps' = SoParams ->
    reads (2 :: p) (g + 1 + width ps) b b' -> sort_of b' = SoExpr ->
    reads p g (Node k [Tok kw; ps; b])
      (EFunction (note p g (Node k [Tok kw; ps; b])) (token_of kw) ps' b')
| RD_params p g k a lk l z es :
    form_of k = FoParams -> token_of a = tLPAREN -> token_of z = tRPAREN ->
    lk = R_PARAMETER_LIST ->
    reads_sep SoParam (1 :: p) 0 (g + 1) l es ->
    reads p g (Node k [Tok a; Node lk l; Tok z])
      (EParams (note p g (Node k [Tok a; Node lk l; Tok z])) es)
| RD_param p g k a a' :
    form_of k = FoParam -> reads (0 :: p) g a a' -> sort_of a' = SoExpr ->
    reads p g (Node k [a]) (EParam (note p g (Node k [a])) a' None)
| RD_param_default p g k a a' d d' :
    form_of k = FoParam -> reads (0 :: p) g a a' -> sort_of a' = SoExpr ->
    reads (1 :: p) (g + width a) d d' -> sort_of d' = SoDefault ->
    reads p g (Node k [a; d]) (EParam (note p g (Node k [a; d])) a' (Some d'))
| RD_default p g k q v v' :
    form_of k = FoDefault -> token_of q = tEQUAL ->
    reads (1 :: p) (g + 1) v v' -> sort_of v' = SoExpr ->
    reads p g (Node k [Tok q; v]) (EDefault (note p g (Node k [Tok q; v])) v')
| RD_if p g k i a c c' z t t' :
    form_of k = FoIf -> token_of i = tIF -> token_of a = tLPAREN -> token_of z = tRPAREN ->
    reads (2 :: p) (g + 2) c c' -> sort_of c' = SoExpr ->
    reads (4 :: p) (g + 3 + width c) t t' -> sort_of t' = SoExpr ->
    reads p g (Node k [Tok i; Tok a; c; Tok z; t])
      (EIf (note p g (Node k [Tok i; Tok a; c; Tok z; t])) c' t' None)
| RD_if_else p g k i a c c' z t t' e e' :
    form_of k = FoIf -> token_of i = tIF -> token_of a = tLPAREN -> token_of z = tRPAREN ->
    reads (2 :: p) (g + 2) c c' -> sort_of c' = SoExpr ->
    reads (4 :: p) (g + 3 + width c) t t' -> sort_of t' = SoExpr ->
    reads (5 :: p) (g + 3 + width c + width t) e e' -> sort_of e' = SoElse ->
    reads p g (Node k [Tok i; Tok a; c; Tok z; t; e])
      (EIf (note p g (Node k [Tok i; Tok a; c; Tok z; t; e])) c' t' (Some e'))
| RD_else p g k q a a' :
    form_of k = FoElse -> token_of q = tELSE ->
    reads (1 :: p) (g + 1) a a' -> sort_of a' = SoExpr ->
    reads p g (Node k [Tok q; a]) (EElse (note p g (Node k [Tok q; a])) (token_newline q) a')
| RD_for p g k f a v v' i s s' z b b' :
    form_of k = FoFor ->
    token_of f = tFOR -> token_of a = tLPAREN -> token_of i = tIN -> token_of z = tRPAREN ->
    reads (2 :: p) (g + 2) v v' -> sort_of v' = SoExpr ->
    reads (4 :: p) (g + 3 + width v) s s' -> sort_of s' = SoExpr ->
    reads (6 :: p) (g + 4 + width v + width s) b b' -> sort_of b' = SoExpr ->
    reads p g (Node k [Tok f; Tok a; v; Tok i; s; Tok z; b])
      (EFor (note p g (Node k [Tok f; Tok a; v; Tok i; s; Tok z; b])) v' s' b')
| RD_while p g k w a c c' z b b' :
    form_of k = FoWhile -> token_of w = tWHILE -> token_of a = tLPAREN -> token_of z = tRPAREN ->
    reads (2 :: p) (g + 2) c c' -> sort_of c' = SoExpr ->
    reads (4 :: p) (g + 3 + width c) b b' -> sort_of b' = SoExpr ->
    reads p g (Node k [Tok w; Tok a; c; Tok z; b])
      (EWhile (note p g (Node k [Tok w; Tok a; c; Tok z; b])) c' b')
| RD_repeat p g k w b b' :
    form_of k = FoRepeat -> token_of w = tREPEAT ->
    reads (1 :: p) (g + 1) b b' -> sort_of b' = SoExpr ->
    reads p g (Node k [Tok w; b]) (ERepeat (note p g (Node k [Tok w; b])) b')
| RD_braced p g k a lk l z es :
    form_of k = FoBraced -> token_of a = tLCURLY -> token_of z = tRCURLY ->
    lk = R_EXPRESSION_LIST ->
    reads_list SoExpr (1 :: p) 0 (g + 1) l es ->
    reads p g (Node k [Tok a; Node lk l; Tok z])
      (EBraced (note p g (Node k [Tok a; Node lk l; Tok z])) es)
| RD_paren p g k a b b' z :
    form_of k = FoParen -> token_of a = tLPAREN -> token_of z = tRPAREN ->
    reads (1 :: p) (g + 1) b b' -> sort_of b' = SoExpr ->
    reads p g (Node k [Tok a; b; Tok z]) (EParen (note p g (Node k [Tok a; b; Tok z])) b')
| RD_call p g k c f f' a a' :
    form_of k = FoCall c ->
    reads (0 :: p) g f f' -> sort_of f' = SoExpr ->
    reads (1 :: p) (g + width f) a a' -> sort_of a' = SoArgs ->
    (exists n rc l, a' = EArgs n c rc l) ->
    reads p g (Node k [f; a]) (ECall (note p g (Node k [f; a])) f' a')
| RD_args p g k c a lk l z es :
    form_of k = FoArgs c -> token_of a = l_token c -> token_of z = r_token c ->
    lk = R_ARGUMENT_LIST ->
    reads_sep SoArg (1 :: p) 0 (g + 1) l es ->
    reads p g (Node k [Tok a; Node lk l; Tok z])
      (EArgs (note p g (Node k [Tok a; Node lk l; Tok z])) c (comments_before z) es)
| RD_hole p g k :
    form_of k = FoArg -> reads p g (Node k []) (EArg (note p g (Node k [])) None None 0)
| RD_arg_name p g k x x' :
    form_of k = FoArg -> reads (0 :: p) g x x' -> sort_of x' = SoName ->
    reads p g (Node k [x]) (EArg (note p g (Node k [x])) (Some x') None 0)
| RD_arg_value p g k x x' :
    form_of k = FoArg -> reads (0 :: p) g x x' -> sort_of x' = SoExpr ->
    reads p g (Node k [x]) (EArg (note p g (Node k [x])) None (Some x') 0)
| RD_arg p g k x x' v v' :
    form_of k = FoArg -> reads (0 :: p) g x x' -> sort_of x' = SoName ->
    reads (1 :: p) (g + width x) v v' -> sort_of v' = SoExpr ->
    reads p g (Node k [x; v]) (EArg (note p g (Node k [x; v])) (Some x') (Some v') 0)
| RD_name p g k a a' q :
    form_of k = FoName -> token_of q = tEQUAL ->
    reads (0 :: p) g a a' -> sort_of a' = SoExpr ->
    reads p g (Node k [a; Tok q]) (ENameClause (note p g (Node k [a; Tok q])) a')
with reads_list : sort -> path -> nat -> nat -> list syn -> list expr -> Prop :=
| RL_nil s q i g : reads_list s q i g [] []
| RL_cons s q i g x e r es :
    reads (i :: q) g x e -> sort_of e = s -> reads_list s q (S i) (g + width x) r es ->
    reads_list s q i g (x :: r) (e :: es)
with reads_sep : sort -> path -> nat -> nat -> list syn -> list expr -> Prop :=
| RS_nil s q i g : reads_sep s q i g [] []
| RS_one s q i g x e :
    reads (i :: q) g x e -> sort_of e = s -> reads_sep s q i g [x] [e]
| RS_cons s q i g x e c r es :
    reads (i :: q) g x e -> sort_of e = s -> token_of c = tCOMMA -> r <> [] ->
    reads_sep s q (S (S i)) (g + width x + 1) r es ->
    reads_sep s q i g (x :: Tok c :: r) (with_separator c e :: es).

Scheme reads_mind := Minimality for reads Sort Prop
  with reads_list_mind := Minimality for reads_list Sort Prop
  with reads_sep_mind := Minimality for reads_sep Sort Prop.

Lemma syn_ind2 (P : syn -> Prop) :
  (forall x, P (Tok x)) ->
  (forall k cs,
     Forall (fun c => P c /\ match c with Node _ l => Forall P l | Tok _ => True end) cs ->
     P (Node k cs)) ->
  forall t, P t.
Proof.
  intros Ht Hn t.
  enough (H : P t /\ match t with Node _ l => Forall P l | Tok _ => True end) by apply H.
  induction t as [k cs IH|x] using syn_ind'; [|split; [apply Ht|exact I]].
  split; [apply Hn, IH|]. clear Hn. induction IH as [|c l [A _] _ IHl]; constructor; assumption.
Qed.

Ltac inv_do H :=
  repeat match type of H with
  | match ?x with Some _ => _ | None => None end = Some _ =>
    let E := fresh "E" in destruct x eqn:E; [|discriminate H]
  | check _ _ = Some _ => apply check_some in H; let B := fresh "B" in destruct H as [B H]
  | Some _ = Some _ => injection H as H; subst
  end.
Ltac tokens_eq :=
  repeat match goal with
  | H : _ && _ = true |- _ => apply andb_true_iff in H; destruct H
  | H : is_tok _ _ = true |- _ => apply is_tok_eq in H
  | H : kind_eqb _ _ = true |- _ => apply kind_eqb_eq in H
  | H : sorted _ _ = Some _ |- _ => apply sorted_some in H; destruct H
  | H : args_of_kind _ _ = true |- _ => apply args_of_kind_eq in H
  end.

Theorem typed_reads t : forall p g e, typed p g t = Some e -> reads p g t e.
Proof.
  induction t as [x|k cs IH] using syn_ind2; intros p g e H; [discriminate H|].
  cbn [AstModel.typed] in H.
  set (listed := fun s => fix go (i g : nat) (l : list syn) : option (list expr) :=
        match l with
        | [] => Some []
        | x :: r =>
          match sorted s (typed (i :: 1 :: p) g x) with
          | Some e => match go (S i) (g + width x) r with Some es => Some (e :: es) | None => None end
          | None => None
          end
        end) in H.
  set (separated := fun s => fix go (i g : nat) (l : list syn) : option (list expr) :=
        match l with
        | [] => Some []
        | [x] => match sorted s (typed (i :: 1 :: p) g x) with Some e => Some [e] | None => None end
        | x :: Tok c :: ((_ :: _) as r) =>
          check (is_tok tCOMMA c)
            match sorted s (typed (i :: 1 :: p) g x) with
            | Some e =>
              match go (S (S i)) (g + width x + 1) r with
              | Some es => Some (with_separator c e :: es)
              | None => None
              end
            | None => None
            end
        | _ => None
        end) in H.
  assert (HL : forall s l i g es,
            Forall (fun x => forall p g e, typed p g x = Some e -> reads p g x e) l ->
            listed s i g l = Some es -> reads_list s (1 :: p) i g l es).
  { intros s l. induction l as [|x r IHl]; intros i g0 es F L; cbn in L.
    - injection L as <-. constructor.
    - inversion F as [|? ? Fx Fr]. subst. inv_do L. tokens_eq. constructor; auto. }
  assert (HS : forall s n l i g es, List.length l <= n ->
            Forall (fun x => forall p g e, typed p g x = Some e -> reads p g x e) l ->
            separated s i g l = Some es -> reads_sep s (1 :: p) i g l es).
  { intros s n. induction n as [|n IHn]; intros l i g0 es Hn F L.
    - destruct l; [|cbn in Hn; lia]. injection L as <-. constructor.
    - destruct l as [|x [|[? ?|c] [|y r]]]; try discriminate L.
      + injection L as <-. constructor.
      + cbn in L. inversion F as [|? ? Fx Fr]. subst. inv_do L. tokens_eq. constructor; auto.
      + inversion F as [|? ? Fx Fr]. inversion Fr as [|? ? _ Fr']. subst.
        cbn in L. apply check_some in L. destruct L as [B L].
        destruct (sorted s (typed (i :: 1 :: p) g0 x)) as [e0|] eqn:E; [|discriminate L].
        fold separated in L. change (match separated s (S (S i)) (g0 + width x + 1) (y :: r) with
           | Some es => Some (with_separator c e0 :: es) | None => None end = Some es) in L.
        destruct (separated s (S (S i)) (g0 + width x + 1) (y :: r)) eqn:E2; [|discriminate L].
        injection L as <-. tokens_eq. constructor; auto; [discriminate|].
        apply IHn; auto. cbn in Hn |- *. lia. }

  destruct (form_of k) eqn:K;
    repeat match type of H with
    | match ?l with [] => _ | _ :: _ => _ end = _ => is_var l; destruct l as [|? l]; try discriminate H
    | match ?l with Node _ _ => _ | Tok _ => _ end = _ => is_var l; destruct l as [? ?|?]; try discriminate H
    | match ?l with None => _ | Some _ => _ end = _ => fail 1
    end.
  all: try discriminate H.
  all: repeat match goal with F : Forall _ (_ :: _) |- _ => inversion F; clear F; subst end.
  all: repeat match goal with
       | F : _ /\ _ |- _ => destruct F
       | F : Forall _ [] |- _ => clear F
       end.
  all: inv_do H.
  all: tokens_eq.
  all: try (econstructor; eauto; fail).
  - apply RD_leaf; [assumption|discriminate|assumption].
  - destruct (sort_of e0) eqn:S0; try discriminate H; injection H as <-; econstructor; eauto.
Qed.
End Reads.
