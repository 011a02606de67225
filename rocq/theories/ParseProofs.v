(** Proofs about the parser's walk and sink. *)
From Coq Require Import List NArith Bool Arith Lia.
From Verif Require Import Text TextFacts SyntaxKind ParseModel ParseSpec.
Import ListNotations.

(** ** Induction on tree-sitter trees *)
Section TsInd.
Variable P : ts -> Prop.
Hypothesis step : forall k f s e cs, Forall P cs -> P (TS k f s e cs).
Fixpoint ts_ind' (t : ts) : P t :=
  match t with
  | TS k f s e cs =>
    step k f s e cs
      ((fix go (l : list ts) : Forall P l :=
          match l with
          | [] => Forall_nil _
          | c :: r => Forall_cons _ (ts_ind' c) (go r)
          end) cs)
  end.
End TsInd.

(** ** The walk is a fold over the leaves plus a fixed list of events *)
Fixpoint flat (s : shape) : list event :=
  match s with
  | SNode k cs => Start k :: flat_map flat cs ++ [Finish]
  | STok k _ e => [Token k e]
  end.
Definition flats (l : list shape) : list event := flat_map flat l.

Lemma flats_app : forall a b, flats (a ++ b) = flats a ++ flats b.
Proof. intros. apply flat_map_app. Qed.
Lemma flats_node : forall k cs, flats [SNode k cs] = Start k :: flats cs ++ [Finish].
Proof. intros. cbn. rewrite app_nil_r. reflexivity. Qed.

Section Walk.
Variable src : text.

Definition lex := (list trivia * nat * bool)%type.

Definition run_leaf (l : leaf) (x : lex) : option lex :=
  let '(tv, le, b) := x in
  bind (slice le (leaf_start l) src) (fun gap =>
  match l with
  | LTok _ s e =>
    bind (derive_trivia gap le b) (fun ps => Some (tv ++ ps, e, true))
  | LCom s e =>
    let has_lf := existsb (fun c => (c =? LF)%N) gap in
    let tr := if has_lf then false else b in
    bind (if has_lf then derive_trivia gap le b
          else Some (if negb (s =? le) then [mk_trivia Whitespace le s tr] else []))
      (fun ps => Some (tv ++ ps ++ [mk_trivia Comment s e tr], e, b))
  end).

Fixpoint run_leaves (ls : list leaf) (x : lex) : option lex :=
  match ls with
  | [] => Some x
  | l :: r => bind (run_leaf l x) (run_leaves r)
  end.

Lemma run_leaves_app : forall a b x,
  run_leaves (a ++ b) x = bind (run_leaves a x) (run_leaves b).
Proof.
  induction a as [|l a IH]; intros b x; cbn; [reflexivity|].
  destruct (run_leaf l x); cbn; [apply IH | reflexivity].
Qed.

Definition proj (w : walker) : lex := (w_trivia w, w_last_end w, w_between w).
Definition put (w : walker) (evs : list event) (x : lex) : walker :=
  {| w_events := w_events w ++ evs; w_trivia := fst (fst x);
     w_last_end := snd (fst x); w_between := snd x |}.
Definition upd (w : walker) (evs : list event) (ls : list leaf) : option walker :=
  match run_leaves ls (proj w) with
  | Some x => Some (put w evs x)
  | None => None
  end.

Lemma proj_put : forall w evs x, proj (put w evs x) = x.
Proof. intros w evs [[tv le] b]. reflexivity. Qed.

Lemma put_put : forall w a x b y, put (put w a x) b y = put w (a ++ b) y.
Proof. intros. unfold put. cbn. rewrite app_assoc. reflexivity. Qed.

Lemma upd_upd : forall w e1 l1 e2 l2,
  bind (upd w e1 l1) (fun w' => upd w' e2 l2) = upd w (e1 ++ e2) (l1 ++ l2).
Proof.
  intros. unfold upd. rewrite run_leaves_app.
  destruct (run_leaves l1 (proj w)) as [x|]; cbn; [|reflexivity].
  rewrite proj_put. destruct (run_leaves l2 x); [|reflexivity].
  rewrite put_put. reflexivity.
Qed.

Lemma upd_nil : forall w, upd w [] [] = Some w.
Proof.
  intros [ev tv le b]. unfold upd, put. cbn. rewrite app_nil_r. reflexivity.
Qed.

Lemma upd_push : forall ev w e l, upd (push_event ev w) e l = upd w (ev :: e) l.
Proof.
  intros. unfold upd, push_event. cbn.
  change (proj {| w_events := w_events w ++ [ev]; w_trivia := w_trivia w;
                  w_last_end := w_last_end w; w_between := w_between w |}) with (proj w).
  destruct (run_leaves l (proj w)); [|reflexivity].
  unfold put. cbn. rewrite <- app_assoc. reflexivity.
Qed.

Lemma bind_ext : forall A B (o : option A) (f g : A -> option B),
  (forall a, f a = g a) -> bind o f = bind o g.
Proof. intros A B [a|] f g H; cbn; auto. Qed.

Lemma bind_push : forall w e l ev (f : walker -> option walker) e2 l2,
  (forall w, f w = upd w e2 l2) ->
  bind (upd w e l) (fun w => f (push_event ev w)) = upd w (e ++ ev :: e2) (l ++ l2).
Proof.
  intros w e l ev f e2 l2 H.
  rewrite (bind_ext _ _ _ _ (fun w => upd w (ev :: e2) l2)).
  - apply upd_upd.
  - intro a. rewrite H, upd_push. reflexivity.
Qed.

Lemma bind_leave : forall w e l,
  bind (upd w e l) (fun w => Some (leave w)) = upd w (e ++ [Finish]) l.
Proof.
  intros.
  rewrite (bind_ext _ _ _ _ (fun w => upd w [Finish] [])).
  - rewrite upd_upd, app_nil_r. reflexivity.
  - intro a. rewrite <- upd_push, upd_nil. reflexivity.
Qed.

Lemma bind_upd : forall w e l (f : walker -> option walker) e2 l2,
  (forall w, f w = upd w e2 l2) -> bind (upd w e l) f = upd w (e ++ e2) (l ++ l2).
Proof.
  intros w e l f e2 l2 H.
  rewrite (bind_ext _ _ _ _ (fun w => upd w e2 l2)); [apply upd_upd | exact H].
Qed.

Lemma token_upd : forall s e k w,
  handle_token src s e k w = upd w [Token k e] [LTok k s e].
Proof.
  intros s e k [ev tv le b]. unfold handle_token, upd, proj, put. cbn.
  destruct (slice le s src) as [gap|]; cbn; [|reflexivity].
  destruct (derive_trivia gap le b); reflexivity.
Qed.

Lemma comment_upd : forall s e w,
  handle_comment_leave src s e w = upd w [] [LCom s e].
Proof.
  intros s e [ev tv le b]. unfold handle_comment_leave, upd, proj, put. cbn.
  destruct (slice le s src) as [gap|]; cbn; [|reflexivity].
  destruct (existsb (fun c => (c =? LF)%N) gap).
  - destruct (derive_trivia gap le b); cbn; [|reflexivity]. rewrite app_nil_r. reflexivity.
  - cbn. rewrite app_nil_r. reflexivity.
Qed.

(** ** The loops *)
Definition good (t : ts) : Prop :=
  forall w, walk src t w = upd w (flats (shapes t)) (leaves t).

Definition items (l : list ts) : list item := map (fun c => (c, shapes c)) l.

Lemma became_cons : forall i l, became (i :: l) = snd i ++ became l.
Proof. reflexivity. Qed.

Lemma walk_all_good : forall l, Forall good l ->
  forall w, walk_all (walk src) l w = upd w (flats (became (items l))) (flat_map leaves l).
Proof.
  induction 1 as [|c l Hc _ IH]; intro w; cbn [walk_all items map flat_map].
  - rewrite upd_nil. reflexivity.
  - rewrite Hc. rewrite (bind_upd _ _ _ _ _ _ IH).
    rewrite became_cons, flats_app. reflexivity.
Qed.

(** Delimited lists *)
Lemma closed_split : forall close p l, closed_by close p l = true ->
  exists m c, l = m ++ [c] /\ ts_kind c = close /\ forallb (fun x => p (ts_kind x)) m = true.
Proof.
  induction l as [|c [|d r] IH]; intro H; [discriminate| |].
  - exists [], c. cbn in H. apply kind_eqb_eq in H. auto.
  - change (closed_by close p (c :: d :: r)) with (p (ts_kind c) && closed_by close p (d :: r)) in H.
    apply andb_prop in H. destruct H as [H1 H2].
    destruct (IH H2) as (m & e & E & K & F). exists (c :: m), e.
    rewrite E. cbn. rewrite H1. auto.
Qed.

Lemma delimited_split : forall open close p l, delimited open close p l = true ->
  exists o m c, l = o :: m ++ [c] /\ ts_kind o = open /\ ts_kind c = close /\
                forallb (fun x => p (ts_kind x)) m = true.
Proof.
  intros open close p [|o r] H; [discriminate|]. cbn in H.
  apply andb_prop in H. destruct H as [H1 H2]. apply kind_eqb_eq in H1.
  destruct (closed_split _ _ _ H2) as (m & c & -> & K & F).
  exists o, m, c. auto.
Qed.

Lemma items_app : forall a b, items (a ++ b) = items a ++ items b.
Proof. intros. apply map_app. Qed.

Lemma became_app : forall a b, became (a ++ b) = became a ++ became b.
Proof. intros. apply flat_map_app. Qed.

Lemma wrap_inside_split : forall node inner o m c,
  wrap_inside node inner (items (o :: m ++ [c]))
  = shapes o ++ [SNode node (inner (items m))] ++ shapes c.
Proof.
  intros. unfold wrap_inside, items. cbn [map].
  rewrite map_app. cbn [map snd].
  rewrite removelast_last, app_length, map_length. cbn [List.length].
  replace (length m + 1 - 1) with (length (map (fun c0 => (c0, shapes c0)) m))
    by (rewrite map_length; lia).
  rewrite skipn_app, skipn_all, Nat.sub_diag. cbn. rewrite app_nil_r. reflexivity.
Qed.

Lemma parameters_tail : forall c, good c -> ts_kind c = R_PAREN ->
  forall m, Forall good m -> forallb (fun x => parameters_item (ts_kind x)) m = true ->
  forall w, parameters_loop (walk src) (m ++ [c]) w
    = upd w (flats (became (items m)) ++ Finish :: flats (shapes c)) (flat_map leaves (m ++ [c])).
Proof.
  intros c Hc Kc. induction 1 as [|x m Hx _ IH]; intros F w.
  - cbn [app parameters_loop]. rewrite Kc, Hc.
    unfold leave at 1. rewrite upd_push.
    rewrite (bind_upd _ _ _ _ [] []); [|intro; symmetry; apply upd_nil].
    cbn. rewrite ?app_nil_r. reflexivity.
  - cbn in F. apply andb_prop in F. destruct F as [F1 F2].
    cbn [app parameters_loop].
    assert (E : (match ts_kind x with
             | L_PAREN => bind (walk src x w) (fun w => parameters_loop (walk src) (m ++ [c]) (enter R_PARAMETER_LIST w))
             | R_PAREN => bind (walk src x (leave w)) (parameters_loop (walk src) (m ++ [c]))
             | R_PARAMETER | COMMA | COMMENT => bind (walk src x w) (parameters_loop (walk src) (m ++ [c]))
             | _ => None end) = bind (walk src x w) (parameters_loop (walk src) (m ++ [c]))).
    { destruct (ts_kind x); try discriminate; reflexivity. }
    rewrite E, Hx. rewrite (bind_upd _ _ _ _ _ _ (IH F2)).
    cbn [items map flat_map]. rewrite became_cons, flats_app, <- app_assoc. reflexivity.
Qed.

Lemma braced_tail : forall c, good c -> ts_kind c = R_CURLY ->
  forall m, Forall good m -> forallb (fun x => braced_item (ts_kind x)) m = true ->
  forall w, braced_loop (walk src) (m ++ [c]) w
    = upd w (flats (became (items m)) ++ Finish :: flats (shapes c)) (flat_map leaves (m ++ [c])).
Proof.
  intros c Hc Kc. induction 1 as [|x m Hx _ IH]; intros F w.
  - cbn [app braced_loop]. rewrite Kc, Hc.
    unfold leave at 1. rewrite upd_push.
    rewrite (bind_upd _ _ _ _ [] []); [|intro; symmetry; apply upd_nil].
    cbn. rewrite ?app_nil_r. reflexivity.
  - cbn in F. apply andb_prop in F. destruct F as [F1 F2].
    cbn [app braced_loop].
    assert (E : (match ts_kind x with
             | L_CURLY => bind (walk src x w) (fun w => braced_loop (walk src) (m ++ [c]) (enter R_EXPRESSION_LIST w))
             | R_CURLY => bind (walk src x (leave w)) (braced_loop (walk src) (m ++ [c]))
             | _ => bind (walk src x w) (braced_loop (walk src) (m ++ [c])) end)
             = bind (walk src x w) (braced_loop (walk src) (m ++ [c]))).
    { destruct (ts_kind x); try discriminate; reflexivity. }
    rewrite E, Hx. rewrite (bind_upd _ _ _ _ _ _ (IH F2)).
    cbn [items map flat_map]. rewrite became_cons, flats_app, <- app_assoc. reflexivity.
Qed.

(** Nodes with an inner clause *)
Lemma count_zero : forall k l, count_kind k l = 0 ->
  forallb (fun c => negb (kind_eqb (ts_kind c) k)) l = true.
Proof.
  unfold count_kind. induction l as [|c l IH]; cbn; [reflexivity|].
  destruct (kind_eqb (ts_kind c) k); cbn; [discriminate|]. exact IH.
Qed.

Lemma parameter_after : forall l, Forall good l ->
  forallb (fun c => negb (kind_eqb (ts_kind c) EQUAL)) l = true ->
  forall used w, parameter_loop (walk src) l used w
    = upd w (flats (became (items l)) ++ if used then [Finish] else []) (flat_map leaves l).
Proof.
  induction 1 as [|c l Hc _ IH]; intros F used w.
  - destruct used; cbn [app flat_map items map became flats]; symmetry.
    + rewrite <- upd_push. apply upd_nil.
    + apply upd_nil.
  - cbn in F. apply andb_prop in F. destruct F as [F1 F2].
    cbn [parameter_loop].
    assert (E : forall A (a b : A), (match ts_kind c with EQUAL => a | _ => b end) = b).
    { intros. destruct (ts_kind c); try reflexivity. discriminate. }
    rewrite E, Hc, (bind_upd _ _ _ _ _ _ (IH F2 used)).
    cbn [items map flat_map]. rewrite became_cons, flats_app, <- app_assoc. reflexivity.
Qed.

Lemma parameter_good : forall l, Forall good l -> count_kind EQUAL l <= 1 ->
  forall w, parameter_loop (walk src) l false w
    = upd w (flats (wrap_from EQUAL R_PARAMETER_DEFAULT (items l))) (flat_map leaves l).
Proof.
  induction 1 as [|c l Hc Hl IH]; intros F w.
  - symmetry. apply upd_nil.
  - cbn [parameter_loop items map wrap_from].
    change (item_kind (c, shapes c)) with (ts_kind c).
    unfold count_kind in F. cbn in F.
    destruct (kind_eqb (ts_kind c) EQUAL) eqn:K; cbn in F.
    + apply kind_eqb_eq in K. rewrite K, Hc. unfold enter. rewrite upd_push.
      rewrite (bind_upd _ _ _ _ _ _ (parameter_after l Hl (count_zero EQUAL l ltac:(unfold count_kind; lia)) true)).
      fold (items l). rewrite flats_node, became_cons, flats_app.
      cbn [snd app]. rewrite <- app_assoc. reflexivity.
    + assert (E : forall A (a b : A), (match ts_kind c with EQUAL => a | _ => b end) = b).
      { intros. destruct (ts_kind c); try reflexivity. discriminate. }
      rewrite E, Hc, (bind_upd _ _ _ _ _ _ (IH F)).
      fold (items l). rewrite flats_app. reflexivity.
Qed.

Lemma if_after : forall l, Forall good l ->
  forallb (fun c => negb (kind_eqb (ts_kind c) ELSE_KW)) l = true ->
  forall used w, if_loop (walk src) l used w
    = upd w (flats (became (items l)) ++ if used then [Finish] else []) (flat_map leaves l).
Proof.
  induction 1 as [|c l Hc _ IH]; intros F used w.
  - destruct used; cbn [app flat_map items map became flats]; symmetry.
    + rewrite <- upd_push. apply upd_nil.
    + apply upd_nil.
  - cbn in F. apply andb_prop in F. destruct F as [F1 F2].
    cbn [if_loop].
    assert (E : forall A (a b : A), (match ts_kind c with ELSE_KW => a | _ => b end) = b).
    { intros. destruct (ts_kind c); try reflexivity. discriminate. }
    rewrite E, Hc, (bind_upd _ _ _ _ _ _ (IH F2 used)).
    cbn [items map flat_map]. rewrite became_cons, flats_app, <- app_assoc. reflexivity.
Qed.

Lemma if_good : forall l, Forall good l -> count_kind ELSE_KW l <= 1 ->
  forall w, if_loop (walk src) l false w
    = upd w (flats (wrap_from ELSE_KW R_ELSE_CLAUSE (items l))) (flat_map leaves l).
Proof.
  induction 1 as [|c l Hc Hl IH]; intros F w.
  - symmetry. apply upd_nil.
  - cbn [if_loop items map wrap_from].
    change (item_kind (c, shapes c)) with (ts_kind c).
    unfold count_kind in F. cbn in F.
    destruct (kind_eqb (ts_kind c) ELSE_KW) eqn:K; cbn in F.
    + apply kind_eqb_eq in K. rewrite K, Hc. unfold enter. rewrite upd_push.
      rewrite (bind_upd _ _ _ _ _ _ (if_after l Hl (count_zero ELSE_KW l ltac:(unfold count_kind; lia)) true)).
      fold (items l). rewrite flats_node, became_cons, flats_app.
      cbn [snd app]. rewrite <- app_assoc. reflexivity.
    + assert (E : forall A (a b : A), (match ts_kind c with ELSE_KW => a | _ => b end) = b).
      { intros. destruct (ts_kind c); try reflexivity. discriminate. }
      rewrite E, Hc, (bind_upd _ _ _ _ _ _ (IH F)).
      fold (items l). rewrite flats_app. reflexivity.
Qed.

(** Arguments *)
Lemma argument_after : forall l, Forall good l ->
  forallb (fun c => negb (kind_eqb (ts_kind c) EQUAL)) l = true ->
  forall w, argument_loop (walk src) l true w
    = upd w (flats (became (items l))) (flat_map leaves l).
Proof.
  induction 1 as [|c l Hc _ IH]; intros F w.
  - symmetry. apply upd_nil.
  - cbn in F. apply andb_prop in F. destruct F as [F1 F2]. apply negb_true_iff in F1.
    cbn [argument_loop]. rewrite F1. cbn [negb andb].
    rewrite Hc, (bind_upd _ _ _ _ _ _ (IH F2)).
    cbn [items map flat_map]. rewrite became_cons, flats_app. reflexivity.
Qed.

(** From the name on: up to [=], then the rest. *)
Lemma argument_clause : forall l, Forall good l -> forall eq post,
  skip_plain l = eq :: post -> ts_kind eq = EQUAL ->
  forallb (fun c => negb (kind_eqb (ts_kind c) EQUAL)) post = true ->
  forall w, argument_loop (walk src) l false w
    = upd w (flats (fst (name_clause (items l))) ++ Finish :: flats (snd (name_clause (items l))))
        (flat_map leaves l).
Proof.
  induction 1 as [|c l Hc Hl IH]; intros eq post S K F w; [discriminate|].
  cbn [skip_plain] in S. cbn [argument_loop items map name_clause].
  change (item_kind (c, shapes c)) with (ts_kind c).
  destruct (plain_item c) eqn:P.
  - unfold plain_item in P. apply andb_prop in P. destruct P as [P1 P2].
    apply negb_true_iff in P1, P2. rewrite P1, P2. cbn [negb andb].
    rewrite Hc, (bind_upd _ _ _ _ _ _ (IH _ _ S K F)).
    fold (items l). destruct (name_clause (items l)) as [a b]. cbn [fst snd].
    rewrite flats_app, <- app_assoc. reflexivity.
  - injection S as <- <-. rewrite K. rewrite kind_eqb_refl.
    rewrite Hc. unfold leave.
    rewrite (bind_push _ _ _ _ _ _ _ (argument_after l Hl F)).
    cbn [fst snd]. fold (items l). reflexivity.
Qed.

Lemma argument_good : forall l, Forall good l -> argument_ok l = true ->
  forall w, argument_loop (walk src) l false w
    = upd w (flats (argument_children (items l))) (flat_map leaves l).
Proof.
  intros l Hl. unfold argument_ok. destruct (named l).
  - destruct (skip_plain l) as [|nm r] eqn:S; [discriminate|].
    intro H. apply andb_prop in H. destruct H as [N H].
    destruct (skip_plain r) as [|eq post] eqn:S2; [discriminate|].
    apply andb_prop in H. destruct H as [K F]. apply kind_eqb_eq in K.
    apply negb_true_iff in N.
    revert S. induction Hl as [|c l Hc Hl IH]; intros S w; [discriminate|].
    cbn [skip_plain] in S. cbn [argument_loop items map argument_children fst snd].
    destruct (plain_item c) eqn:P.
    + unfold plain_item in P. apply andb_prop in P. destruct P as [P1 P2].
      apply negb_true_iff in P1, P2. rewrite P1, P2. cbn [negb andb].
      rewrite Hc, (bind_upd _ _ _ _ _ _ (IH S)). fold (items l).
      rewrite flats_app. reflexivity.
    + injection S as -> ->. unfold plain_item in P. rewrite N in P. cbn in P.
      apply negb_false_iff in P. rewrite N, P. cbn [negb andb].
      unfold enter. rewrite Hc. rewrite upd_push.
      rewrite (bind_upd _ _ _ _ _ _ (argument_clause r Hl eq post S2 K F)).
      cbn [name_clause]. change (item_kind (nm, shapes nm)) with (ts_kind nm).
      rewrite N. fold (items r). destruct (name_clause (items r)) as [a b]. cbn [fst snd].
      change (flats (SNode R_ARGUMENT_NAME_CLAUSE (shapes nm ++ a) :: b))
        with (flats ([SNode R_ARGUMENT_NAME_CLAUSE (shapes nm ++ a)] ++ b)).
      rewrite flats_app, flats_node, flats_app. cbn [app].
      rewrite <- !app_assoc. reflexivity.
  - induction Hl as [|c l Hc Hl IH]; intros H w.
    + symmetry. apply upd_nil.
    + cbn in H. apply andb_prop in H. destruct H as [P H].
      unfold plain_item in P. apply andb_prop in P. destruct P as [P1 P2].
      apply negb_true_iff in P1, P2.
      cbn [argument_loop items map argument_children fst snd]. rewrite P1, P2. cbn [negb andb].
      rewrite Hc, (bind_upd _ _ _ _ _ _ (IH H)). fold (items l).
      rewrite flats_app. reflexivity.
Qed.

(** Argument lists *)
Inductive mode := MOpen | MComma | MArg.

Definition first_slot (m : mode) (s : list item) : list shape :=
  match m with MArg => became s | _ => slot_shape s end.
Definition slots_shape (m : mode) (x : list (list item * list shape) * list item) : list shape :=
  match x with
  | ([], last) => match m with MComma => slot_shape last | _ => became last end
  | ((s, c) :: ss, last) =>
    first_slot m s ++ c ++ flat_map (fun s => slot_shape (fst s) ++ snd s) ss ++ slot_shape last
  end.

Lemma argument_list_shape : forall l, argument_list l = slots_shape MOpen (slots l).
Proof.
  intro l. unfold argument_list, slots_shape. destruct (slots l) as [[|[s c] ss] last].
  - reflexivity.
  - cbn [flat_map fst snd first_slot]. rewrite <- !app_assoc. reflexivity.
Qed.

Definition mode_kind (open : kind) (m : mode) : kind :=
  match m with MOpen => open | MComma => COMMA | MArg => R_ARGUMENT end.

Lemma slot_comment : forall c s, ts_kind c = COMMENT ->
  slot_shape ((c, []) :: s) = slot_shape s.
Proof.
  intros c s K. unfold slot_shape. cbn [existsb].
  change (item_kind (c, [])) with (ts_kind c). rewrite K. reflexivity.
Qed.

Lemma comment_shapes : forall c, ts_kind c = COMMENT -> shapes c = [].
Proof. intros [k f s e cs] H. cbn in H. subst. reflexivity. Qed.

Lemma arguments_tail : forall open close,
  In (open, close) [(L_PAREN, R_PAREN); (L_BRACK, R_BRACK); (L_BRACK2, R_BRACK2)] ->
  forall c, good c -> ts_kind c = close ->
  forall m, Forall good m -> forallb (fun x => arguments_item (ts_kind x)) m = true ->
  forall md, slots_ok (match md with MArg => true | _ => false end) (m ++ [c]) = true ->
  forall w, arguments_loop (walk src) open close (m ++ [c]) (mode_kind open md) w
    = upd w (flats (slots_shape md (slots (items m))) ++ Finish :: flats (shapes c))
        (flat_map leaves (m ++ [c])).
Proof.
  intros open close OC c Hc Kc. induction 1 as [|x m Hx Hm IH]; intros F md SL w.
  - assert (KO : kind_eqb close open = false)
      by (destruct OC as [OC|[OC|[OC|[]]]]; injection OC as <- <-; reflexivity).
    cbn [app arguments_loop]. rewrite Kc, KO, kind_eqb_refl, Hc.
    cbn [slots items map slots_shape].
    assert (N : forall w, arguments_loop (walk src) open close [] close w = upd w [] [])
      by (intro; symmetry; apply upd_nil).
    assert (MC : forall md, kind_eqb (mode_kind open md) COMMA
                 = match md with MComma => true | _ => false end).
    { intros [| |]; try reflexivity.
      destruct OC as [OC|[OC|[OC|[]]]]; injection OC as <- <-; reflexivity. }
    unfold handle_hole_before_close, hole, leave, enter. rewrite MC.
    destruct md; rewrite ?upd_push, (bind_upd _ _ _ _ _ _ N), ?app_nil_r;
      cbn [flat_map app flats became]; rewrite ?app_nil_r; reflexivity.
  - cbn in F. apply andb_prop in F. destruct F as [F1 F2].
    cbn [app arguments_loop].
    assert (KO : kind_eqb (ts_kind x) open = false /\ kind_eqb (ts_kind x) close = false).
    { destruct OC as [OC|[OC|[OC|[]]]]; injection OC as <- <-;
        destruct (ts_kind x); try discriminate; split; reflexivity. }
    destruct KO as [-> ->]. cbn [slots_ok app] in SL. cbn [items map slots].
    fold (items m). change (item_kind (x, shapes x)) with (ts_kind x).
    destruct (ts_kind x) eqn:Kx; try discriminate.
    + (* an argument *)
      apply andb_prop in SL. destruct SL as [MD SL].
      change (kind_eqb R_ARGUMENT COMMA) with false. cbn iota.
      rewrite Hx. change R_ARGUMENT with (mode_kind open MArg).
      rewrite (bind_upd _ _ _ _ _ _ (IH F2 MArg SL)).
      destruct (slots (items m)) as [[|[s cm] ss] last]; cbn [flat_map].
      * assert (E : slots_shape md ([], (x, shapes x) :: last)
                    = shapes x ++ slots_shape MArg ([], last)).
        { destruct md; try discriminate; cbn [slots_shape]; unfold slot_shape; cbn [existsb];
            change (item_kind (x, shapes x)) with (ts_kind x); rewrite ?Kx; reflexivity. }
        unfold item in *. rewrite E, flats_app, <- app_assoc. reflexivity.
      * assert (E : slots_shape md (((x, shapes x) :: s, cm) :: ss, last)
                    = shapes x ++ slots_shape MArg ((s, cm) :: ss, last)).
        { destruct md; try discriminate; cbn [slots_shape first_slot]; unfold slot_shape; cbn [existsb];
            change (item_kind (x, shapes x)) with (ts_kind x); rewrite ?Kx; cbn [kind_eqb];
            change (kind_eqb R_ARGUMENT R_ARGUMENT) with true; cbn [orb];
            rewrite became_cons, <- app_assoc; reflexivity. }
        unfold item in *. rewrite E, flats_app, <- app_assoc. reflexivity.
    + (* a comma *)
      change (kind_eqb COMMA COMMA) with true. cbn iota.
      rewrite Hx. change COMMA with (mode_kind open MComma).
      rewrite (bind_upd _ _ _ _ _ _ (IH F2 MComma SL)).
      destruct (slots (items m)) as [ss last] eqn:ES.
      assert (E : slots_shape md (([], shapes x) :: ss, last)
                  = first_slot md [] ++ shapes x ++ slots_shape MComma (ss, last)).
      { cbn [slots_shape]. destruct ss as [|[s cm] ss]; cbn [flat_map app fst snd slots_shape first_slot];
          [|rewrite <- !app_assoc]; reflexivity. }
      cbn [snd]. unfold item in *. rewrite E, flats_app, flats_app.
      unfold handle_hole_before_comma, hole, leave, enter.
      assert (MC : kind_eqb (mode_kind open md) COMMA || kind_eqb (mode_kind open md) open
                   = match md with MArg => false | _ => true end).
      { destruct OC as [OC|[OC|[OC|[]]]]; injection OC as <- <-; destruct md; reflexivity. }
      rewrite MC. cbn [flat_map].
      destruct md; rewrite ?upd_push; cbn [first_slot slot_shape existsb became flat_map flats flat app];
        rewrite <- ?app_assoc; reflexivity.
    + (* a comment *)
      rewrite Hx. rewrite (bind_upd _ _ _ _ _ _ (IH F2 md SL)).
      change (kind_eqb COMMENT COMMA) with false. cbn iota. cbn [flat_map].
      rewrite (comment_shapes x Kx). cbn [flats flat_map app].
      destruct (slots (items m)) as [[|[s cm] ss] last]; f_equal; f_equal; f_equal.
      * destruct md; cbn [slots_shape]; [|symmetry; apply slot_comment; exact Kx|]; reflexivity.
      * destruct md; cbn [slots_shape first_slot];
          [f_equal; symmetry; apply slot_comment; exact Kx | f_equal; symmetry; apply slot_comment; exact Kx | reflexivity].
Qed.

Lemma slots_ok_cons_open : forall open o l,
  In open [L_PAREN; L_BRACK; L_BRACK2] -> ts_kind o = open ->
  slots_ok false (o :: l) = slots_ok false l.
Proof.
  intros open o l H K. cbn. rewrite K.
  destruct H as [<-|[<-|[<-|[]]]]; reflexivity.
Qed.

Lemma arguments_good : forall ak cs,
  In ak [R_CALL_ARGUMENTS; R_SUBSET_ARGUMENTS; R_SUBSET2_ARGUMENTS] ->
  Forall good cs ->
  delimited (fst (delimiters ak)) (snd (delimiters ak)) arguments_item cs = true ->
  slots_ok false cs = true ->
  forall w, handle_arguments (walk src) ak cs w
    = upd w (flats [SNode ak (wrap_inside R_ARGUMENT_LIST argument_list (items cs))])
        (flat_map leaves cs).
Proof.
  intros ak cs HA G D SL w. unfold handle_arguments.
  destruct (delimiters ak) as [open close] eqn:DE. cbn [fst snd] in D.
  assert (OC : In (open, close) [(L_PAREN, R_PAREN); (L_BRACK, R_BRACK); (L_BRACK2, R_BRACK2)]).
  { destruct HA as [<-|[<-|[<-|[]]]]; injection DE as <- <-; cbn; auto. }
  destruct (delimited_split _ _ _ _ D) as (o & m & c & -> & Ko & Kc & F).
  inversion G as [|? ? Go Gr]; subst. apply Forall_app in Gr. destruct Gr as [Gm Gc].
  inversion Gc as [|? ? Gc' _]; subst.
  assert (OI : In (ts_kind o) [L_PAREN; L_BRACK; L_BRACK2])
    by (destruct OC as [OC|[OC|[OC|[]]]]; injection OC as <- _; cbn; auto).
  rewrite (slots_ok_cons_open _ _ _ OI eq_refl) in SL.
  cbn [arguments_loop]. rewrite kind_eqb_refl, Go.
  unfold enter. rewrite upd_push.
  unfold enter.
  rewrite (bind_push _ _ _ _ _ _ _
             (arguments_tail _ _ OC c Gc' eq_refl m Gm F MOpen SL)).
  rewrite bind_leave. rewrite wrap_inside_split, argument_list_shape.
  rewrite flats_node, !flats_app, flats_node.
  cbn [flat_map]. f_equal. cbn [app]. f_equal.
  rewrite <- !app_assoc. cbn [app]. rewrite <- !app_assoc. reflexivity.
Qed.

(** ** The whole walk *)
Definition call_loop (ak : kind) : list ts -> walker -> option walker :=
  fix call_loop (l : list ts) (w : walker) : option walker :=
    match l with
    | [] => Some w
    | c :: r =>
      match c with
      | TS _ F_arguments _ _ cs => bind (handle_arguments (walk src) ak cs w) (call_loop r)
      | _ => bind (walk src c w) (call_loop r)
      end
    end.

Definition gram_good (t : ts) : Prop := gram t = true -> good t.

Lemma gram_forall : forall l, Forall gram_good l -> forallb gram l = true -> Forall good l.
Proof.
  induction 1 as [|c l Hc _ IH]; intro F; [constructor|].
  cbn in F. apply andb_prop in F. destruct F. constructor; auto.
Qed.

Lemma class_call_kind : forall k ak, class_of k = C_call ak ->
  In ak [R_CALL_ARGUMENTS; R_SUBSET_ARGUMENTS; R_SUBSET2_ARGUMENTS].
Proof. intros k ak H. destruct k; try discriminate; injection H as <-; cbn; auto. Qed.

Lemma unreachable_leaves : forall k f s e cs, class_of k = C_unreachable ->
  leaves (TS k f s e cs) = flat_map leaves cs.
Proof. intros k f s e cs H. cbn. rewrite H. reflexivity. Qed.

Lemma call_good : forall k ak, class_of k = C_call ak ->
  forall l,
  Forall (fun c => gram_good c /\ Forall gram_good (ts_children c)) l ->
  forallb (fun c =>
        match c with
        | TS _ F_arguments _ _ cs =>
          delimited (fst (delimiters ak)) (snd (delimiters ak)) arguments_item cs
          && slots_ok false cs && forallb gram cs
          && match class_of (ts_kind c) with C_unreachable => true | _ => false end
        | _ => gram c
        end) l = true ->
  forall w, call_loop ak l w
    = upd w (flats (flat_map (fun c =>
         match c with
         | TS _ F_arguments _ _ cs =>
           [SNode ak (wrap_inside R_ARGUMENT_LIST argument_list (items cs))]
         | _ => shapes c
         end) l)) (flat_map leaves l).
Proof.
  intros k ak CK. induction 1 as [|c l [Hc Hcs] _ IH]; intros F w.
  - symmetry. apply upd_nil.
  - cbn [forallb] in F. apply andb_prop in F. destruct F as [F1 F2].
    cbn [call_loop flat_map]. fold (call_loop ak). rewrite flats_app.
    destruct c as [ck [] cs0 ce cc].
    + rewrite (Hc F1). rewrite (bind_upd _ _ _ _ _ _ (IH F2)). reflexivity.
    + apply andb_prop in F1. destruct F1 as [F1 FU].
      apply andb_prop in F1. destruct F1 as [F1 FG].
      apply andb_prop in F1. destruct F1 as [FD FS].
      rewrite (arguments_good ak cc (class_call_kind _ _ CK) (gram_forall _ Hcs FG) FD FS).
      rewrite (bind_upd _ _ _ _ _ _ (IH F2)).
      rewrite unreachable_leaves by (cbn in FU; destruct (class_of ck); congruence).
      reflexivity.
    + rewrite (Hc F1). rewrite (bind_upd _ _ _ _ _ _ (IH F2)). reflexivity.
Qed.

Lemma walk_gram : forall t, gram_good t /\ Forall gram_good (ts_children t).
Proof.
  induction t as [k f s e cs IH] using ts_ind'.
  assert (G1 : Forall gram_good cs) by (eapply Forall_impl; [|exact IH]; cbn; tauto).
  split; [|exact G1].
  intros G w. cbn [gram] in G. cbn [walk shapes leaves].
  fold (items cs).
  destruct (class_of k) eqn:CK; try discriminate.
  - (* node *)
    rewrite (walk_all_good cs (gram_forall _ G1 G)). unfold enter. rewrite upd_push, bind_leave.
    rewrite flats_node. reflexivity.
  - (* call *)
    change ((fix call_loop (l : list ts) (w0 : walker) {struct l} : option walker :=
             match l with
             | [] => Some w0
             | TS _ F_arguments _ _ cs0 as c :: r => bind (handle_arguments (walk src) arguments_kind cs0 w0) (call_loop r)
             | c :: r => bind (walk src c w0) (call_loop r)
             end) cs (enter k w)) with (call_loop arguments_kind cs (enter k w)).
    rewrite (call_good k _ CK cs IH G). unfold enter. rewrite upd_push, bind_leave.
    rewrite flats_node. reflexivity.
  - (* parameters *)
    apply andb_prop in G. destruct G as [GD GC].
    pose proof (gram_forall _ G1 GC) as GG.
    destruct (delimited_split _ _ _ _ GD) as (o & m & c & -> & Ko & Kc & F).
    inversion GG as [|? ? Go Gr]; subst. apply Forall_app in Gr. destruct Gr as [Gm Gc].
    inversion Gc as [|? ? Gc' _]; subst.
    cbn [parameters_loop]. rewrite Ko, Go. unfold enter. rewrite upd_push.
    rewrite (bind_push _ _ _ _ _ _ _ (parameters_tail c Gc' Kc m Gm F)).
    rewrite bind_leave, wrap_inside_split, flats_node, !flats_app, flats_node.
    cbn [flat_map]. f_equal. cbn [app]. f_equal.
    rewrite <- !app_assoc. cbn [app]. rewrite <- !app_assoc. reflexivity.
  - (* parameter *)
    apply andb_prop in G. destruct G as [GD GC]. apply Nat.leb_le in GD.
    rewrite (parameter_good cs (gram_forall _ G1 GC) GD).
    unfold enter. rewrite upd_push, bind_leave, flats_node. reflexivity.
  - (* if *)
    apply andb_prop in G. destruct G as [GD GC]. apply Nat.leb_le in GD.
    rewrite (if_good cs (gram_forall _ G1 GC) GD).
    unfold enter. rewrite upd_push, bind_leave, flats_node. reflexivity.
  - (* argument *)
    apply andb_prop in G. destruct G as [GD GC].
    rewrite (argument_good cs (gram_forall _ G1 GC) GD).
    unfold enter. rewrite upd_push, bind_leave, flats_node. reflexivity.
  - (* braced *)
    apply andb_prop in G. destruct G as [GD GC].
    pose proof (gram_forall _ G1 GC) as GG.
    destruct (delimited_split _ _ _ _ GD) as (o & m & c & -> & Ko & Kc & F).
    inversion GG as [|? ? Go Gr]; subst. apply Forall_app in Gr. destruct Gr as [Gm Gc].
    inversion Gc as [|? ? Gc' _]; subst.
    cbn [braced_loop]. rewrite Ko, Go. unfold enter. rewrite upd_push.
    rewrite (bind_push _ _ _ _ _ _ _ (braced_tail c Gc' Kc m Gm F)).
    rewrite bind_leave, wrap_inside_split, flats_node, !flats_app, flats_node.
    cbn [flat_map]. f_equal. cbn [app]. f_equal.
    rewrite <- !app_assoc. cbn [app]. rewrite <- !app_assoc. reflexivity.
  - (* value *)
    destruct cs; [|discriminate]. cbn [walk_all bind]. rewrite token_upd.
    unfold enter. rewrite upd_push, bind_leave. reflexivity.
  - (* skip *)
    rewrite token_upd. unfold enter. rewrite upd_push, bind_leave. reflexivity.
  - (* string *)
    rewrite (walk_all_good cs (gram_forall _ G1 G)). unfold enter. rewrite upd_push, bind_leave.
    rewrite flats_node. reflexivity.
  - (* token *)
    destruct cs; [|discriminate]. cbn [walk_all bind]. rewrite token_upd. reflexivity.
  - (* content *)
    rewrite token_upd. reflexivity.
  - (* comment *)
    destruct cs; [|discriminate]. cbn [walk_all bind]. rewrite comment_upd. reflexivity.
Qed.

(** ** Trivia *)
Definition tv_of (p : placed) : trivia :=
  mk_trivia (pl_kind p) (pl_pos p) (pl_pos p + blen (pl_text p)) (pl_trailing p).

Definition ok_pieces (xs : list (tkind * text)) : Prop :=
  forallb piece_ok xs = true /\ whole_breaks xs.

Lemma cr_right : forall a b, cr_paired (a ++ b) -> cr_paired b.
Proof. induction a as [|c a IH]; intros b H; [exact H|]. apply IH. exact (proj2 H). Qed.

Lemma cr_left : forall a b, cr_paired (a ++ b) ->
  match b with c :: _ => c <> LF | [] => True end -> cr_paired a.
Proof.
  induction a as [|c a IH]; intros b H N; [exact I|]. destruct H as [H1 H2]. split.
  - intro E. specialize (H1 E). destruct a as [|d a]; [|exact H1].
    destruct b as [|d b]; [exact H1|]. cbn in H1. congruence.
  - exact (IH b H2 N).
Qed.

Lemma ok_nil : ok_pieces [].
Proof. split; [reflexivity|]. intros _. constructor. Qed.

Lemma ok_cons : forall p xs, piece_ok p = true ->
  (cr_paired (snd p ++ pieces_text xs) -> fst p = Newline -> In LF (snd p)) ->
  ok_pieces xs -> ok_pieces (p :: xs).
Proof.
  intros p xs A W [B C]. split; [cbn [forallb]; rewrite A, B; reflexivity|].
  intro P. change (cr_paired (snd p ++ pieces_text xs)) in P. constructor; [exact (W P)|].
  apply C. exact (cr_right _ _ P).
Qed.

Lemma ok_cons_quiet : forall k x xs, piece_ok (k, x) = true -> k <> Newline ->
  ok_pieces xs -> ok_pieces ((k, x) :: xs).
Proof. intros k x xs A N O. apply ok_cons; [exact A|intros _ E; cbn in E; congruence|exact O]. Qed.

Lemma pieces_text_app : forall a b, pieces_text (a ++ b) = pieces_text a ++ pieces_text b.
Proof. intros. apply flat_map_app. Qed.

Lemma pieces_text_cons : forall k x xs, pieces_text ((k, x) :: xs) = x ++ pieces_text xs.
Proof. reflexivity. Qed.

Lemma place_app : forall tr a b pos,
  place tr pos (a ++ b) = place tr pos a ++ place tr (pos + blen (pieces_text a)) b.
Proof.
  induction a as [|[k x] a IH]; intros b pos; cbn.
  - rewrite Nat.add_0_r. reflexivity.
  - rewrite IH, blen_app, Nat.add_assoc. reflexivity.
Qed.

Lemma ws_len : forall c, is_whitespace c = true -> utf8_len c = 1.
Proof.
  intros c H. unfold is_whitespace in H. rewrite !orb_true_iff, !N.eqb_eq in H.
  destruct H as [[[[->| ->]| ->]| ->]| ->]; reflexivity.
Qed.

Lemma gap_len : forall t, forallb gap_char t = true -> blen t = length t.
Proof.
  induction t as [|c t IH]; intro H; [reflexivity|]. cbn in H.
  apply andb_prop in H. destruct H as [H1 H2]. cbn. rewrite (IH H2).
  unfold gap_char in H1. apply orb_prop in H1. destruct H1 as [H1|H1].
  - rewrite (ws_len c H1). reflexivity.
  - unfold is_newline in H1. apply orb_prop in H1.
    destruct H1 as [H1|H1]; apply N.eqb_eq in H1; subst; reflexivity.
Qed.

Lemma ws_no_lf : forall c, is_whitespace c = true -> negb (c =? LF)%N = true.
Proof.
  intros c H. unfold is_whitespace in H. rewrite !orb_true_iff, !N.eqb_eq in H.
  destruct H as [[[[->| ->]| ->]| ->]| ->]; reflexivity.
Qed.

Lemma ws_piece : forall x, x <> [] -> forallb is_whitespace x = true ->
  piece_ok (Whitespace, x) = true.
Proof.
  intros x N W. unfold piece_ok. cbn.
  rewrite !andb_true_iff. repeat split.
  - destruct x as [|c x]; [congruence|]. cbn. pose proof (utf8_len_pos c).
    destruct (utf8_len c + blen x) eqn:E; [lia|reflexivity].
  - apply forallb_forall. intros c Hc. unfold gap_char.
    rewrite (proj1 (forallb_forall _ _) W c Hc). reflexivity.
  - apply forallb_forall. intros c Hc. apply ws_no_lf.
    exact (proj1 (forallb_forall _ _) W c Hc).
Qed.

Definition pend (ws : bool) (start stop : nat) (wt : text) : Prop :=
  if ws then wt <> [] /\ forallb is_whitespace wt = true /\ start + blen wt = stop
  else wt = [] /\ start = stop.

(** What [leading_trivia] produces on a gap, [wt] being the white space read so far. *)
Lemma leading_spec : forall n t, length t <= n -> forallb gap_char t = true ->
  forall start stop ws wt, pend ws start stop wt ->
  exists xs, leading_trivia t start stop ws = Some (map tv_of (place false start xs)) /\
             pieces_text xs = wt ++ t /\ ok_pieces xs /\
             (wt = [] -> match t with c :: _ => is_newline c = true | [] => False end ->
              exists x xs', xs = (Newline, x) :: xs').
Proof.
  induction n as [|n IH]; intros t Hn G start stop ws wt P.
  - destruct t; [|cbn in Hn; lia].
    unfold pend in P. destruct ws.
    + destruct P as (N & W & E). exists [(Whitespace, wt)]. cbn. unfold tv_of. cbn.
      rewrite E, app_nil_r. repeat split; try tauto.
      * cbn. rewrite andb_true_r. apply ws_piece; assumption.
      * intros _. constructor; [discriminate|constructor].
    + destruct P as [-> ->]. exists []. cbn. repeat split; [|tauto]. intros _. constructor.
  - destruct t as [|c r].
    + apply (IH [] ltac:(cbn; lia) G start stop ws wt P).
    + cbn [forallb] in G. apply andb_prop in G. destruct G as [Gc G].
      cbn [length] in Hn.
      set (pendl := if ws then [mk_trivia Whitespace start stop false] else []).
      (* a newline piece [x] of length [m] after the pending white space *)
      assert (NL : forall x m r', is_whitespace c = false ->
        blen x = m -> c :: r = x ++ r' -> piece_ok (Newline, x) = true ->
        (cr_paired (x ++ r') -> In LF x) ->
        length r' <= n -> forallb gap_char r' = true ->
        exists xs, match leading_trivia r' (m + stop) (m + stop) false with
                   | Some ps => Some (pendl ++ mk_trivia Newline stop (m + stop) false :: ps)
                   | None => None
                   end = Some (map tv_of (place false start xs)) /\
             pieces_text xs = wt ++ c :: r /\ ok_pieces xs /\
             (wt = [] -> is_newline c = true -> exists x xs', xs = (Newline, x) :: xs')).
      { intros x m r' Wc Lx Ex Px Wx Lr Gr.
        destruct (IH r' Lr Gr (m + stop) (m + stop) false [] (conj eq_refl eq_refl))
          as (ys & -> & Ty & Oy & _).
        assert (OX : ok_pieces ((Newline, x) :: ys))
          by (apply ok_cons; [exact Px|rewrite Ty; intros H _; exact (Wx H)|exact Oy]).
        unfold pendl, pend in *. destruct ws.
        - destruct P as (N & W & E).
          exists ((Whitespace, wt) :: (Newline, x) :: ys).
          rewrite !pieces_text_cons, Ty, Ex. cbn. unfold tv_of. cbn.
          rewrite E, Lx, (Nat.add_comm stop m).
          split; [reflexivity|split; [reflexivity|split]].
          + apply ok_cons_quiet; [exact (ws_piece wt N W)|discriminate|exact OX].
          + intros ->. congruence.
        - destruct P as [-> ->]. exists ((Newline, x) :: ys).
          rewrite !pieces_text_cons, Ty, Ex. cbn. unfold tv_of. cbn. rewrite Lx, (Nat.add_comm stop m).
          split; [reflexivity|split; [reflexivity|split]].
          + exact OX.
          + eauto. }
      cbn [leading_trivia].
      destruct (is_whitespace c) eqn:Wc.
      * assert (P' : pend true (if ws then start else stop) (S stop) (wt ++ [c])).
        { unfold pend in *. rewrite blen_app. cbn. rewrite (ws_len c Wc).
          rewrite forallb_app. cbn. rewrite Wc.
          destruct ws.
          - destruct P as (N & W & E). rewrite W. repeat split; [|lia].
            destruct wt; discriminate.
          - destruct P as [-> ->]. repeat split; [discriminate|cbn; lia]. }
        destruct (IH r ltac:(lia) G _ _ _ _ P') as (xs & E1 & E2 & E3 & _).
        exists xs. rewrite E1, E2.
        assert (S0 : (if ws then start else stop) = start).
        { unfold pend in P. destruct ws; [reflexivity|]. destruct P as [_ ->]. reflexivity. }
        rewrite S0, <- app_assoc.
        split; [reflexivity|split; [reflexivity|split; [exact E3|]]].
        intros _ Hnl. unfold is_newline in Hnl. unfold is_whitespace in Wc.
        exfalso. apply orb_prop in Hnl.
        destruct Hnl as [Hnl|Hnl]; apply N.eqb_eq in Hnl; subst c; discriminate.
      * unfold gap_char in Gc. rewrite Wc in Gc. cbn [orb] in Gc.
        pose proof Gc as Hnl. unfold is_newline in Gc. apply orb_prop in Gc.
        destruct (c =? CR)%N eqn:EC.
        -- apply N.eqb_eq in EC. subst c. destruct r as [|d r'].
           ++ destruct (NL [CR] 1 [] eq_refl eq_refl eq_refl eq_refl
                          ltac:(intros [H _]; destruct (H eq_refl)) ltac:(cbn; lia) eq_refl)
                as (xs & E1 & E2 & E3 & E4). cbn in E1. exists xs. fold pendl. rewrite <- E1. auto.
           ++ destruct (d =? LF)%N eqn:ED.
              ** apply N.eqb_eq in ED. subst d. cbn [forallb] in G. cbn [length] in Hn.
                 apply andb_prop in G. destruct G as [_ G].
                 destruct (NL [CR; LF] 2 r' eq_refl eq_refl eq_refl eq_refl
                             ltac:(cbn; auto) ltac:(lia) G)
                   as (xs & E1 & E2 & E3 & E4). exists xs. fold pendl. rewrite <- E1. auto.
              ** destruct (NL [CR] 1 (d :: r') eq_refl eq_refl eq_refl eq_refl
                             ltac:(intros [H _]; specialize (H eq_refl); cbn in H; subst d; discriminate)
                             ltac:(lia) G)
                   as (xs & E1 & E2 & E3 & E4). exists xs. fold pendl. rewrite <- E1. auto.
        -- destruct Gc as [Gc|Gc]; [congruence|]. rewrite Gc.
           apply N.eqb_eq in Gc. subst c.
           destruct (NL [LF] 1 r eq_refl eq_refl eq_refl eq_refl ltac:(cbn; auto) ltac:(lia) G)
             as (xs & E1 & E2 & E3 & E4). exists xs. fold pendl. rewrite <- E1. auto.
Qed.

Lemma take_line_spec : forall t a b f, take_line t = (a, b, f) ->
  t = a ++ b /\ forallb (fun c => negb (is_newline c)) a = true /\
  (f = true <-> b <> []) /\ match b with c :: _ => is_newline c = true | [] => True end.
Proof.
  induction t as [|c t IH]; intros a b f H; cbn in H.
  - injection H as <- <- <-. repeat split; try discriminate. congruence.
  - destruct (is_newline c) eqn:N.
    + injection H as <- <- <-. repeat split; try discriminate; auto.
    + destruct (take_line t) as [[a' b'] f'] eqn:E. injection H as <- <- <-.
      destruct (IH _ _ _ eq_refl) as (-> & A & B & C). cbn. rewrite N, A. auto.
Qed.

(** No line breaks among some trivia. *)
Definition no_newline (xs : list (tkind * text)) : Prop := Forall (fun p => fst p <> Newline) xs.

Lemma derive_spec : forall gap start b, forallb gap_char gap = true ->
  exists xt xl,
    derive_trivia gap start b
    = Some (map tv_of (place true start xt ++ place false (start + blen (pieces_text xt)) xl)) /\
    pieces_text xt ++ pieces_text xl = gap /\ ok_pieces xt /\ ok_pieces xl /\
    placed_comments (place true start xt) = [] /\
    (forall pos tr, placed_comments (place tr pos xl) = []) /\
    (b = false -> xt = []) /\
    (match gap with c :: _ => is_newline c = true | [] => True end -> xt = []) /\
    no_lf (pieces_text xt) = true /\ no_newline xt.
Proof.
  intros gap start b G. unfold derive_trivia.
  assert (NC : forall xs, forallb gap_char (pieces_text xs) = true -> forallb piece_ok xs = true ->
               forall pos tr, placed_comments (place tr pos xs) = []).
  { induction xs as [|[k x] xs IH]; intros T O pos tr; [reflexivity|].
    cbn [forallb] in O. apply andb_prop in O. destruct O as [O1 O2].
    cbn [pieces_text flat_map snd] in T. rewrite forallb_app in T.
    apply andb_prop in T. destruct T as [T1 T2].
    cbn [place placed_comments flat_map pl_kind]. rewrite (IH T2 O2).
    destruct k; try reflexivity. unfold piece_ok in O1. cbn in O1.
    destruct x as [|c x]; [discriminate|]. cbn in T1. apply andb_prop in O1. destruct O1 as [O1 _].
    apply N.eqb_eq in O1. subst c. discriminate. }
  destruct b.
  - destruct (take_line gap) as [[line rest] f] eqn:E.
    destruct (take_line_spec _ _ _ _ E) as (-> & NL & FB & HB).
    rewrite forallb_app in G. apply andb_prop in G. destruct G as [G1 G2].
    destruct (leading_spec (length rest) rest (le_n _) G2 (start + blen line) (start + blen line)
                false [] (conj eq_refl eq_refl)) as (xl & -> & T & O & F).
    assert (GL : forallb gap_char (pieces_text xl) = true) by (rewrite T; exact G2).
    assert (WL : forallb is_whitespace line = true).
    { apply forallb_forall. intros c Hc.
      pose proof (proj1 (forallb_forall _ _) G1 c Hc) as A.
      pose proof (proj1 (forallb_forall _ _) NL c Hc) as B.
      unfold gap_char in A. apply negb_true_iff in B. rewrite B, orb_false_r in A. exact A. }
    assert (LF0 : no_lf line = true).
    { unfold no_lf. apply forallb_forall. intros c Hc. apply ws_no_lf.
      exact (proj1 (forallb_forall _ _) WL c Hc). }
    destruct (start =? start + blen line) eqn:EQ.
    + apply Nat.eqb_eq in EQ. assert (L0 : line = []) by (apply blen_nil_inv; lia). subst line.
      cbn [blen] in *. rewrite Nat.add_0_r in *.
      exists [], xl. cbn. rewrite Nat.add_0_r, T. pose proof ok_nil. pose proof (proj1 O).
      assert (no_newline []) by constructor. auto 20.
    + apply Nat.eqb_neq in EQ.
      assert (LN : line <> []) by (intros ->; cbn in EQ; lia).
      destruct f.
      * exists [(Whitespace, line)], xl.
        cbn [place map app].
        rewrite pieces_text_cons, app_nil_r, T.
        split; [reflexivity|split; [reflexivity|split; [|split; [exact O|split; [reflexivity|split;
          [exact (fun pos tr => NC xl GL (proj1 O) pos tr)|split; [discriminate|split; [|split; [exact LF0|constructor; [discriminate|constructor]]]]]]]]]].
        -- apply ok_cons_quiet; [exact (ws_piece line LN WL)|discriminate|exact ok_nil].
        -- destruct line as [|c line]; [congruence|]. cbn [app].
           intro H. cbn in NL. rewrite H in NL. discriminate.
      * assert (rest = []).
        { destruct rest; [reflexivity|]. destruct FB as [_ FB].
          specialize (FB ltac:(discriminate)). discriminate. }
        subst rest. cbn in T.
        exists [], ((Whitespace, line) :: xl).
        cbn [place map app].
        rewrite pieces_text_cons, T, app_nil_r. cbn [pieces_text flat_map blen app].
        rewrite Nat.add_0_r.
        assert (OL : ok_pieces ((Whitespace, line) :: xl))
          by (apply ok_cons_quiet; [exact (ws_piece line LN WL)|discriminate|exact O]).
        assert (CL : forall pos tr, placed_comments (place tr pos ((Whitespace, line) :: xl)) = []).
        { apply (NC ((Whitespace, line) :: xl)); [|exact (proj1 OL)].
          rewrite pieces_text_cons, T, app_nil_r. exact G1. }
        pose proof ok_nil. assert (no_newline []) by constructor.
        cbn [placed_comments flat_map]. auto 20.
  - destruct (leading_spec (length gap) gap (le_n _) G start start false [] (conj eq_refl eq_refl))
      as (xl & -> & T & O & F).
    assert (CL : forall pos tr, placed_comments (place tr pos xl) = []).
    { apply NC; [rewrite T; exact G|exact (proj1 O)]. }
    exists [], xl. cbn. rewrite Nat.add_0_r, T. pose proof ok_nil.
    assert (no_newline []) by constructor. auto 20.
Qed.

(** ** The whole list of leaves *)
Definition run_root (ls : list leaf) (x : lex) : option (list trivia) :=
  bind (run_leaves ls x) (fun '(tv, le, _) =>
  bind (slice le (blen src) src) (fun gap =>
  bind (derive_trivia gap le false) (fun ps => Some (tv ++ ps)))).

Lemma slice_mid : forall a g r, src = a ++ g ++ r ->
  slice (blen a) (blen a + blen g) src = Some g.
Proof.
  intros a g r E. unfold slice.
  destruct (blen a + blen g <? blen a) eqn:L; [apply Nat.ltb_lt in L; lia|].
  rewrite E at 1. rewrite split_at_app.
  replace (blen a + blen g - blen a) with (blen g) by lia.
  rewrite split_at_app. reflexivity.
Qed.

Definition with_leading (xs : list (tkind * text)) (p : parts) : parts :=
  {| p_kind := p_kind p; p_leading := xs ++ p_leading p; p_own := p_own p;
     p_trailing := p_trailing p |}.

Lemma placed_with_leading : forall xs p ps pos,
  placed_trivia pos (with_leading xs p :: ps)
  = place false pos xs ++ placed_trivia (pos + blen (pieces_text xs)) (p :: ps).
Proof.
  intros. cbn [placed_trivia with_leading p_leading p_own p_trailing].
  rewrite place_app, pieces_text_app, <- app_assoc. f_equal. f_equal. unfold parts_text.
  cbn [with_leading p_leading p_own p_trailing].
  rewrite !pieces_text_app, !blen_app. f_equal; f_equal; lia.
Qed.

Lemma own_with_leading : forall xs p ps pos,
  own_ranges pos (with_leading xs p :: ps)
  = own_ranges (pos + blen (pieces_text xs)) (p :: ps).
Proof.
  intros. cbn [own_ranges with_leading p_leading p_own p_kind]. unfold parts_text.
  cbn [with_leading p_leading p_own p_trailing].
  rewrite !pieces_text_app, !blen_app. f_equal; [f_equal; [f_equal|]; lia | f_equal; lia].
Qed.

Lemma text_with_leading : forall xs p ps,
  flat_map parts_text (with_leading xs p :: ps)
  = pieces_text xs ++ flat_map parts_text (p :: ps).
Proof.
  intros. cbn [flat_map]. rewrite app_assoc. f_equal. unfold parts_text.
  cbn [with_leading p_leading p_own p_trailing].
  rewrite pieces_text_app, <- !app_assoc. reflexivity.
Qed.

Ltac parts_of_it := repeat match goal with |- _ /\ _ => split end.

Lemma ok_app : forall a b, ok_pieces a -> ok_pieces b ->
  match pieces_text b with c :: _ => c <> LF | [] => True end -> ok_pieces (a ++ b).
Proof.
  intros a b [A1 A2] [B1 B2] N. split; [rewrite forallb_app, A1, B1; reflexivity|].
  intro P. rewrite pieces_text_app in P. apply Forall_app. split.
  - apply A2. exact (cr_left _ _ P N).
  - apply B2. exact (cr_right _ _ P).
Qed.

Lemma ok_comment : forall a x b, ok_pieces a -> piece_ok (Comment, x) = true -> ok_pieces b ->
  ok_pieces ((a ++ [(Comment, x)]) ++ b).
Proof.
  intros a x b A X B. rewrite <- app_assoc. apply ok_app; [exact A| |].
  - apply ok_cons_quiet; [exact X|discriminate|exact B].
  - cbn [app pieces_text flat_map snd]. destruct x as [|c x]; [discriminate|].
    cbn in X. apply andb_prop in X. destruct X as [X _]. apply N.eqb_eq in X. subst c. discriminate.
Qed.

Lemma quiet_on_lines : forall xs, (forall pos tr, placed_comments (place tr pos xs) = []) ->
  comments_on_lines xs.
Proof.
  intros xs H a x b ->. specialize (H 0 true). rewrite place_app in H.
  unfold placed_comments in H. rewrite flat_map_app in H. apply app_eq_nil in H.
  destruct H as [_ H]. discriminate.
Qed.

Lemma on_lines_after : forall a b, (exists a1 a2, a = a1 ++ a2 /\ In LF (pieces_text a1) /\
    forall x, ~ In (Comment, x) a1) -> comments_on_lines (a ++ b).
Proof.
  intros a b (a1 & a2 & -> & L & N) c x d E. rewrite <- app_assoc in E.
  revert a1 L N E. induction c as [|p c IH]; intros [|q a1] L N E; try contradiction.
  - injection E as -> _. destruct (N x (or_introl eq_refl)).
  - injection E as -> E. cbn [pieces_text flat_map] in *. apply in_app_iff in L.
    apply in_app_iff. destruct L as [L|L]; [left; exact L|right].
    apply (IH a1 L); [|exact E]. intros y Y. exact (N y (or_intror Y)).
Qed.

Lemma placed_comments_app : forall a b,
  placed_comments (a ++ b) = placed_comments a ++ placed_comments b.
Proof. intros. apply flat_map_app. Qed.

Definition parts_ok (p : parts) : Prop :=
  ok_pieces (p_leading p) /\ ok_pieces (p_trailing p) /\
  no_lf (pieces_text (p_trailing p)) = true /\ no_newline (p_trailing p).

Lemma no_lf_app : forall a b, no_lf (a ++ b) = no_lf a && no_lf b.
Proof. intros. apply forallb_app. Qed.

Lemma has_lf_no : forall g, existsb (fun c => (c =? LF)%N) g = negb (no_lf g).
Proof.
  induction g as [|c g IH]; [reflexivity|]. cbn. rewrite IH. unfold no_lf.
  destruct (c =? LF)%N; reflexivity.
Qed.

(** A gap before a comment that follows a comment has a line feed and starts
    with a newline. *)
Lemma after_comment_gap : forall g x r,
  at_line_end (g ++ x ++ r) = true -> x <> [] ->
  match x with c :: _ => is_newline c = false | [] => True end ->
  no_lf g = false /\ match g with c :: _ => is_newline c = true | [] => False end.
Proof.
  intros [|c g] x r A N X.
  - destruct x as [|c x]; [congruence|]. cbn in A. unfold is_newline in X.
    apply orb_false_iff in X. destruct X as [X1 X2]. rewrite X1, X2 in A. discriminate.
  - cbn in A. destruct (c =? LF)%N eqn:E.
    + apply N.eqb_eq in E. subst. split; reflexivity.
    + cbn in A. apply andb_prop in A. destruct A as [A1 A2]. apply N.eqb_eq in A1. subst c.
      split; [|reflexivity]. cbn.
      destruct g as [|d g].
      * destruct x as [|d x]; [congruence|]. cbn in A2. unfold is_newline in X.
        apply orb_false_iff in X. destruct X as [_ X]. rewrite X in A2. discriminate.
      * cbn in A2. cbn. rewrite A2. reflexivity.
Qed.

Lemma last_default : forall (A : Type) (l : list A) (x d d' : A),
  List.last (x :: l) d = List.last (x :: l) d'.
Proof.
  induction l as [|y l IH]; intros x d d'; [reflexivity|].
  change (List.last (y :: l) d = List.last (y :: l) d'). apply IH.
Qed.

Definition comment_text (x : text) : Prop := piece_ok (Comment, x) = true.

Theorem leaves_spec : forall ls pos pre rest tv (b after : bool) (last : option nat),
  src = pre ++ rest -> blen pre = pos -> laid pos ls rest = true ->
  (after = true -> at_line_end rest = true) ->
  (if b then exists a mid pre0, last = Some a /\ src = pre0 ++ mid ++ rest /\ blen pre0 = a /\
             (after = false -> mid = [])
   else last = None) ->
  exists xt p ps,
    run_root ls (tv, pos, b)
    = Some (tv ++ map tv_of (place true pos xt
                             ++ placed_trivia (pos + blen (pieces_text xt)) (p :: ps))) /\
    pieces_text xt ++ flat_map parts_text (p :: ps) = rest /\
    ok_pieces xt /\ (no_lf (pieces_text xt) = true /\ no_newline xt) /\ Forall parts_ok (p :: ps) /\
    own_ranges (pos + blen (pieces_text xt)) (p :: ps)
    = token_leaves ls ++ [(EOF, blen src, blen src)] /\
    placed_comments (place true pos xt
                     ++ placed_trivia (pos + blen (pieces_text xt)) (p :: ps))
    = comment_places src last ls /\
    p_trailing (List.last (p :: ps) p) = [] /\
    (b = false -> xt = []) /\ (after = true -> xt = []) /\
    (b = true -> comments_on_lines (p_leading p)) /\
    Forall (fun q => comments_on_lines (p_leading q)) ps.
Proof.
  induction ls as [|l ls IH]; intros pos pre rest tv b after last Es Ep L AF LB.
  - (* end of file *)
    cbn in L. destruct (derive_spec rest pos false L)
      as (xt & xl & D & T & Ot & Ol & Ct & Cl & B & _ & _ & _).
    specialize (B eq_refl). subst xt. cbn in T. cbn [place app pieces_text flat_map blen] in D.
    rewrite Nat.add_0_r in D.
    exists [], {| p_kind := EOF; p_leading := xl; p_own := []; p_trailing := [] |}, [].
    unfold run_root. cbn [run_leaves bind].
    assert (SL : slice pos (blen src) src = Some rest).
    { rewrite <- Ep. replace (blen src) with (blen pre + blen rest) by (rewrite Es, blen_app; lia).
      apply (slice_mid pre rest []). rewrite app_nil_r. exact Es. }
    rewrite SL. cbn [bind]. rewrite D. cbn [bind].
    cbn [place app pieces_text flat_map blen placed_trivia p_leading p_own p_trailing].
    rewrite Nat.add_0_r, app_nil_r.
    unfold parts_text. cbn [p_leading p_own p_trailing pieces_text flat_map]. rewrite !app_nil_r.
    fold (pieces_text xl). rewrite T.
    cbn [own_ranges p_kind p_leading p_own blen].
    rewrite T. unfold no_lf. cbn [forallb token_leaves flat_map app comment_places].
    pose proof ok_nil as ON. pose proof (quiet_on_lines xl Cl) as QL.
    assert (no_newline []) by constructor. parts_of_it; auto.
    + constructor; [|constructor]. unfold parts_ok. cbn. auto 10.
    + rewrite Nat.add_0_r. rewrite Es, blen_app, Ep. reflexivity.
  - cbn [laid] in L. apply andb_prop in L. destruct L as [L1 L].
    apply andb_prop in L1. destruct L1 as [L1 L2].
    apply Nat.leb_le in L1, L2.
    destruct (split_at (leaf_start l - pos) rest) as [[g r1]|] eqn:S1; [|discriminate].
    apply andb_prop in L. destruct L as [G L].
    destruct (split_at (leaf_end l - leaf_start l) r1) as [[x r2]|] eqn:S2; [|discriminate].
    apply andb_prop in L. destruct L as [LO L].
    apply split_at_sound in S1, S2. destruct S1 as [-> B1], S2 as [-> B2].
    assert (SL : slice pos (leaf_start l) src = Some g).
    { rewrite <- Ep. replace (leaf_start l) with (blen pre + blen g) by lia.
      apply (slice_mid pre g (x ++ r2)). exact Es. }
    assert (Es' : src = (pre ++ g ++ x) ++ r2) by (rewrite Es, <- !app_assoc; reflexivity).
    assert (Ep' : blen (pre ++ g ++ x) = leaf_end l) by (rewrite !blen_app; lia).
    unfold leaf_ok in LO. apply andb_prop in LO. destruct LO as [NE LO].
    assert (XN : x <> []) by (intros ->; discriminate).
    unfold run_root. cbn [run_leaves].
    destruct l as [k s e|s e]; cbn [leaf_start leaf_end] in *.
    + (* a token *)
      destruct (derive_spec g pos b G) as (xt & xl & D & T & Ot & Ol & Ct & Cl & B & NLg & NF & NN).
      cbn [run_leaf leaf_start]. rewrite SL. cbn [bind]. rewrite D. cbn [bind].
      destruct (IH e (pre ++ g ++ x) r2
                  (tv ++ map tv_of (place true pos xt ++ place false (pos + blen (pieces_text xt)) xl))
                  true false (Some e) Es' Ep' L ltac:(discriminate))
        as (xt' & p & ps & R & T' & O' & N' & F' & W' & C' & LT & _ & _ & QP & QS).
      { exists e, [], (pre ++ g ++ x). repeat split; auto. }
      unfold run_root in R. rewrite R.
      set (q := {| p_kind := k; p_leading := xl; p_own := x; p_trailing := xt' |}).
      assert (TG : blen (pieces_text xt) + blen (pieces_text xl) = blen g)
        by (rewrite <- blen_app, T; reflexivity).
      assert (PE : pos + blen (pieces_text xt) + blen (pieces_text xl) + blen x = e) by lia.
      assert (PT : pos + blen (pieces_text xt) + blen (parts_text q)
                   = e + blen (pieces_text xt')).
      { unfold parts_text. cbn [q p_leading p_own p_trailing]. rewrite !blen_app. lia. }
      exists xt, q, (p :: ps).
      cbn [placed_trivia]. fold (placed_trivia (pos + blen (pieces_text xt) + blen (parts_text q)) (p :: ps)).
      rewrite PT. cbn [q p_leading p_own p_trailing]. rewrite PE.
      parts_of_it; [| |exact Ot|exact NF|exact NN| | | | |exact B| |exact (fun _ => quiet_on_lines xl Cl)|
        constructor; [exact (QP eq_refl)|exact QS]].
      * rewrite <- app_assoc. f_equal. f_equal. rewrite !map_app, <- !app_assoc. reflexivity.
      * cbn [flat_map]. unfold parts_text at 1. cbn [q p_leading p_own p_trailing].
        rewrite <- T, <- !app_assoc. f_equal. f_equal. f_equal.
        cbn [flat_map] in T'. exact T'.
      * constructor; [|exact F']. unfold parts_ok. cbn. destruct N'. auto 10.
      * cbn [own_ranges]. fold (own_ranges (pos + blen (pieces_text xt) + blen (parts_text q)) (p :: ps)).
        rewrite PT. cbn [q p_leading p_own p_kind]. rewrite PE.
        cbn [own_ranges] in W'. cbn [own_ranges]. rewrite W'.
        cbn [token_leaves flat_map app]. fold (token_leaves ls).
        f_equal. f_equal. f_equal. lia.
      * cbn [placed_trivia] in C'. rewrite !placed_comments_app in C'.
        rewrite !placed_comments_app, Ct, Cl. cbn [app comment_places]. exact C'.
      * rewrite <- LT. f_equal. change (List.last (p :: ps) q = List.last (p :: ps) p).
        apply last_default.
      * intro A. apply NLg. specialize (AF A). destruct g as [|c g].
        -- exact I.
        -- cbn in AF. unfold is_newline. destruct (c =? LF)%N; [rewrite orb_true_r; reflexivity|].
           cbn in AF. apply andb_prop in AF. destruct AF as [-> _]. reflexivity.
    + (* a comment *)
      apply andb_prop in LO. destruct LO as [LO AE]. apply andb_prop in LO. destruct LO as [X1 X2].
      assert (CX : piece_ok (Comment, x) = true) by (apply andb_true_intro; split; assumption).
      assert (NX : match x with c :: _ => is_newline c = false | [] => True end).
      { destruct x as [|c x]; [exact I|]. apply N.eqb_eq in X1. subst c. reflexivity. }
      assert (CP : forall t r, placed_comments
                     ({| pl_kind := Comment; pl_pos := s; pl_text := x; pl_trailing := t |} :: r)
                     = (s, e, t) :: placed_comments r).
      { intros t r. cbn. do 3 f_equal. lia. }
      assert (TV : forall t, tv_of {| pl_kind := Comment; pl_pos := s; pl_text := x; pl_trailing := t |}
                     = mk_trivia Comment s e t).
      { intro t. unfold tv_of. cbn. f_equal. lia. }
      cbn [run_leaf leaf_start]. rewrite SL. cbn [bind]. rewrite has_lf_no.
      destruct (no_lf g) eqn:NG; cbn [negb].
      * (* on the line of what precedes *)
        assert (AFF : after = false).
        { destruct after; [|reflexivity]. specialize (AF eq_refl).
          destruct (after_comment_gap g x r2 AF XN NX) as [H _]. congruence. }
        subst after.
        set (wsx := if s =? pos then [] else [(Whitespace, g)]).
        assert (WT : pieces_text wsx = g).
        { unfold wsx. destruct (s =? pos) eqn:Q.
          - apply Nat.eqb_eq in Q. symmetry. apply blen_nil_inv. lia.
          - cbn. apply app_nil_r. }
        assert (WO : ok_pieces wsx).
        { unfold wsx. destruct (s =? pos) eqn:Q; [exact ok_nil|]. apply Nat.eqb_neq in Q.
          apply ok_cons_quiet; [|discriminate|exact ok_nil].
          unfold piece_ok. cbn [fst snd]. rewrite G, NG, !andb_true_r.
          apply negb_true_iff, Nat.eqb_neq. lia. }
        assert (WC : forall tr q, placed_comments (place tr q wsx) = []).
        { intros tr q. unfold wsx. destruct (s =? pos); reflexivity. }
        assert (WM : forall tr, map tv_of (place tr pos wsx)
                     = if negb (s =? pos) then [mk_trivia Whitespace pos s tr] else []).
        { intro tr. unfold wsx. destruct (s =? pos); [reflexivity|]. cbn. unfold tv_of. cbn.
          repeat f_equal. lia. }
        set (cx := wsx ++ [(Comment, x)]).
        assert (CT : pieces_text cx = g ++ x).
        { unfold cx. rewrite pieces_text_app, WT. cbn. rewrite app_nil_r. reflexivity. }
        assert (CB : pos + blen (pieces_text cx) = e) by (rewrite CT, blen_app; lia).
        assert (CO : ok_pieces cx)
          by (unfold cx; rewrite <- (app_nil_r (wsx ++ _)); exact (ok_comment _ _ _ WO CX ok_nil)).
        assert (CM : forall tr, place tr pos cx
                     = place tr pos wsx
                       ++ [{| pl_kind := Comment; pl_pos := s; pl_text := x; pl_trailing := tr |}]).
        { intro tr. unfold cx. rewrite place_app. f_equal. cbn. repeat f_equal. rewrite WT. lia. }
        assert (CN : no_newline cx).
        { unfold cx, wsx. destruct (s =? pos); cbn [app]; repeat constructor; discriminate. }
        cbn [bind]. rewrite <- WM.
        destruct b.
        -- destruct LB as (a & mid & pre0 & -> & E0 & B0 & M0). specialize (M0 eq_refl). subst mid.
           cbn [app] in E0.
           destruct (IH e (pre ++ g ++ x) r2
                       (tv ++ map tv_of (place true pos wsx) ++ [mk_trivia Comment s e true])
                       true true (Some a) Es' Ep' L (fun _ => AE))
             as (xt' & p & ps & R & T' & O' & N' & F' & W' & C' & LT & _ & AT & QP & QS).
           { exists a, (g ++ x), pre0. repeat split; try congruence.
             rewrite E0, <- !app_assoc. reflexivity. }
           specialize (AT eq_refl). subst xt'.
           cbn [place app pieces_text flat_map blen] in R, T', W', C'. rewrite Nat.add_0_r in R, W', C'.
           unfold run_root in R. rewrite R.
           exists cx, p, ps. rewrite CB, CT.
           parts_of_it; [| |exact CO| |exact CN|exact F'|exact W'| |exact LT|discriminate|discriminate|exact QP|exact QS].
           ++ rewrite <- app_assoc. f_equal. f_equal. rewrite CM, !map_app, <- !app_assoc.
              cbn [map app]. rewrite TV. reflexivity.
           ++ cbn [flat_map] in *. rewrite T', <- app_assoc. reflexivity.
           ++ rewrite no_lf_app, NG. exact X2.
           ++ rewrite CM, !placed_comments_app, WC, CP. cbn [app placed_comments flat_map].
              cbn [comment_places]. f_equal; [|exact C'].
              f_equal. unfold no_lf_between. rewrite <- B0.
              assert (PP : pre0 = pre).
              { rewrite Es in E0. symmetry in E0. apply app_inv_tail in E0. exact E0. }
              rewrite PP. replace s with (blen pre + blen g) by lia.
              rewrite (slice_mid pre g (x ++ r2) Es), NG. reflexivity.
        -- subst last.
           destruct (IH e (pre ++ g ++ x) r2
                       (tv ++ map tv_of (place false pos wsx) ++ [mk_trivia Comment s e false])
                       false true None Es' Ep' L (fun _ => AE) eq_refl)
             as (xt' & p & ps & R & T' & O' & N' & F' & W' & C' & LT & BT & AT & QP & QS).
           specialize (AT eq_refl). subst xt'.
           cbn [place app pieces_text flat_map blen] in R, T', W', C'. rewrite Nat.add_0_r in R, W', C'.
           unfold run_root in R. rewrite R.
           exists [], (with_leading cx p), ps.
           rewrite placed_with_leading, own_with_leading, text_with_leading.
           cbn [place app pieces_text flat_map blen]. rewrite Nat.add_0_r.
           fold (pieces_text cx). rewrite CB, CT.
           parts_of_it; [| |exact ok_nil|reflexivity|constructor| |exact W'| | |reflexivity|reflexivity|discriminate|exact QS].
           ++ rewrite <- app_assoc. f_equal. f_equal. rewrite CM, !map_app, <- !app_assoc.
              cbn [map app]. rewrite TV. reflexivity.
           ++ cbn [flat_map] in *. rewrite T', <- app_assoc. reflexivity.
           ++ destruct (Forall_cons_iff parts_ok p ps) as [FI _]. destruct (FI F') as [[A [B C]] F''].
              constructor; [|exact F''].
              split; [|split]; [exact (ok_comment _ _ _ WO CX A)|exact B|exact C].
           ++ rewrite CM, !placed_comments_app, WC, CP. cbn [app placed_comments flat_map].
              cbn [comment_places]. f_equal. exact C'.
           ++ destruct ps as [|p2 ps]; [exact LT|]. rewrite <- LT. f_equal.
              change (List.last (p2 :: ps) (with_leading cx p) = List.last (p2 :: ps) p).
              apply last_default.
      * (* on a line of its own *)
        destruct (derive_spec g pos b G) as (xt & xl & D & T & Ot & Ol & Ct & Cl & B & NLg & NF & NN).
        rewrite D. cbn [bind].
        destruct (IH e (pre ++ g ++ x) r2
                    (tv ++ map tv_of (place true pos xt ++ place false (pos + blen (pieces_text xt)) xl)
                        ++ [mk_trivia Comment s e false])
                    b true last Es' Ep' L (fun _ => AE))
          as (xt' & p & ps & R & T' & O' & N' & F' & W' & C' & LT & BT & AT & QP & QS).
        { destruct b; [|exact LB]. destruct LB as (a & mid & pre0 & -> & E0 & B0 & M0).
          exists a, (mid ++ g ++ x), pre0. repeat split; try congruence.
          rewrite E0, <- !app_assoc. reflexivity. }
        specialize (AT eq_refl). subst xt'.
        cbn [place app pieces_text flat_map blen] in R, T', W', C'. rewrite Nat.add_0_r in R, W', C'.
        unfold run_root in R. rewrite R.
        assert (TG : blen (pieces_text xt) + blen (pieces_text xl) = blen g)
          by (rewrite <- blen_app, T; reflexivity).
        set (lx := xl ++ [(Comment, x)]).
        assert (CT : pieces_text lx = pieces_text xl ++ x).
        { unfold lx. rewrite pieces_text_app. cbn. rewrite app_nil_r. reflexivity. }
        assert (CB : pos + blen (pieces_text xt) + blen (pieces_text lx) = e)
          by (rewrite CT, blen_app; lia).
        assert (CM : forall tr, place tr (pos + blen (pieces_text xt)) lx
                     = place tr (pos + blen (pieces_text xt)) xl
                       ++ [{| pl_kind := Comment; pl_pos := s; pl_text := x; pl_trailing := tr |}]).
        { intro tr. unfold lx. rewrite place_app. f_equal. cbn. repeat f_equal. lia. }
        exists xt, (with_leading lx p), ps.
        rewrite placed_with_leading, own_with_leading, text_with_leading.
        rewrite CB.
        assert (LXF : In LF (pieces_text xl)).
        { rewrite <- T, no_lf_app, NF in NG. cbn [andb] in NG.
          pose proof (has_lf_no (pieces_text xl)) as NH.
          rewrite NG in NH. cbn [negb] in NH. apply existsb_exists in NH. destruct NH as (c & Hc & E).
          apply N.eqb_eq in E. subst c. exact Hc. }
        parts_of_it; [| |exact Ot|exact NF|exact NN| |exact W'| | |exact B| | |exact QS].
        -- rewrite <- app_assoc. f_equal. f_equal. rewrite CM, !map_app, <- !app_assoc.
           cbn [map app]. rewrite TV. reflexivity.
        -- rewrite CT. cbn [flat_map] in *. rewrite T', <- T, <- !app_assoc. reflexivity.
        -- destruct (Forall_cons_iff parts_ok p ps) as [FI _]. destruct (FI F') as [[P1 [P2 P3]] F''].
           constructor; [|exact F''].
           split; [|split]; [|exact P2|exact P3].
           exact (ok_comment _ _ _ Ol CX P1).
        -- rewrite CM, !placed_comments_app, Ct, Cl, CP. cbn [app placed_comments flat_map].
           cbn [comment_places]. f_equal; [|exact C'].
           f_equal. destruct b; [|subst last; reflexivity].
           destruct LB as (a & mid & pre0 & -> & E0 & B0 & M0).
           unfold no_lf_between. rewrite <- B0.
           assert (PP : pre = pre0 ++ mid).
           { apply (app_inv_tail (g ++ x ++ r2)). rewrite <- Es, E0, app_assoc. reflexivity. }
           replace s with (blen pre0 + blen (mid ++ g)) by
             (rewrite blen_app; rewrite PP, blen_app in Ep; lia).
           rewrite (slice_mid pre0 (mid ++ g) (x ++ r2)).
           ++ rewrite no_lf_app, NG, andb_false_r. reflexivity.
           ++ rewrite E0, <- !app_assoc. reflexivity.
        -- destruct ps as [|p2 ps]; [exact LT|]. rewrite <- LT. f_equal.
           change (List.last (p2 :: ps) (with_leading lx p) = List.last (p2 :: ps) p).
           apply last_default.
        -- intro A. apply NLg. specialize (AF A).
           destruct (after_comment_gap g x r2 AF XN NX) as [_ H]. destruct g; [exact I|exact H].
        -- intros _. unfold lx, with_leading. cbn [p_leading].
           rewrite <- app_assoc. apply on_lines_after. exists xl, []. rewrite app_nil_r.
           repeat split; [exact LXF|]. intros y Y. apply in_split in Y. destruct Y as (y1 & y2 & ->).
           specialize (Cl 0 true). rewrite place_app in Cl. unfold placed_comments in Cl.
           rewrite flat_map_app in Cl. apply app_eq_nil in Cl. destruct Cl as [_ Cl]. discriminate.
Qed.
End Walk.
