(** Nodes of the typed tree by their place, and the output in terms of the
    source. *)
From Coq Require Import List Arith Bool NArith Lia.
From Verif Require Import Text LineEndingModel LineEndingSpec SettingsModel SyntaxKind ParseModel
  ParseSpec ParseTree FmtTree IrModel FmtSpec FmtPathSpec FmtModel CommentsModel AstModel AstReads AstProofs
  FrontProofs FmtFactProofs SourceSpec SourceProofs SourceCommentProofs.
Import ListNotations.

(** * Nodes below nodes *)

Lemma nodes_self g e : In (g, e) (nodes g e).
Proof. destruct e; left; reflexivity. Qed.
Lemma row_in f sep l : forall g y, In y (row f sep g l) ->
  exists a x b, l = a ++ x :: b /\
    In y (f (g + list_sum (map (fun z => List.length (etokens z) + sep) a)) x).
Proof.
  induction l as [|x r IH]; intros g y H; [destruct H|]. cbn [row] in H. fold (row f sep) in H.
  apply in_app_iff in H as [H|H].
  - exists [], x, r. cbn. rewrite Nat.add_0_r. auto.
  - destruct (IH _ _ H) as [a [x' [b [-> Hy]]]]. exists (x :: a), x', b. split; [reflexivity|].
    cbn [map list_sum fold_right] in *. unfold list_sum in *.
    match goal with Hy : In _ (f ?i _) |- In _ (f ?j _) => replace j with i by lia; exact Hy end.
Qed.
Lemma in_row f sep a x b : forall g y,
  In y (f (g + list_sum (map (fun z => List.length (etokens z) + sep) a)) x) ->
  In y (row f sep g (a ++ x :: b)).
Proof.
  induction a as [|z a IH]; intros g y H; cbn [app row]; fold (row f sep); apply in_app_iff.
  - left. cbn in H. rewrite Nat.add_0_r in H. exact H.
  - right. apply IH. cbn [map list_sum fold_right] in H. unfold list_sum in *.
    match goal with Hy : In _ (f ?i _) |- In _ (f ?j _) => replace j with i by lia; exact Hy end.
Qed.

Lemma nodes_below e : forall g g' x, In (g', x) (nodes g e) -> incl (nodes g' x) (nodes g e).
Proof.
  assert (RW : forall sep l, Forall (fun e => forall g g' x, In (g', x) (nodes g e) ->
                 incl (nodes g' x) (nodes g e)) l ->
               forall g g' x, In (g', x) (row nodes sep g l) -> incl (nodes g' x) (row nodes sep g l)).
  { intros sep l F g g' x H. destruct (row_in _ _ _ _ _ H) as [a [z [b [-> Hz]]]].
    apply Forall_app in F as [_ F]. pose proof (Forall_inv F _ _ _ Hz) as I.
    intros y Hy. apply in_row. apply I. exact Hy. }
  induction e using expr_ind'; intros g0 g' x [E|E];
    try (injection E as <- <-; apply incl_refl); cbn [nodes] in E |- *; apply incl_tl;
    repeat match goal with
    | E : In _ (_ ++ _) |- _ => apply in_app_iff in E as [E|E]
    | E : In _ [] |- _ => destruct E
    | H : Popt _ ?d |- _ => destruct d; cbn [Popt] in H
    end; eauto using incl_appl, incl_appr.
Qed.

(** [x] is somewhere in [e]. *)
Definition holds (e x : expr) : Prop := forall g, exists g', In (g', x) (nodes g e).
Lemma holds_self e : holds e e.
Proof. intros g. exists g. apply nodes_self. Qed.
Lemma holds_trans a b c : holds a b -> holds b c -> holds a c.
Proof.
  intros H1 H2 g. destruct (H1 g) as [g' Hb]. destruct (H2 g') as [h Hc]. exists h.
  exact (nodes_below _ _ _ _ Hb _ Hc).
Qed.
Lemma holds_item sep l x g : In x l -> exists g', In (g', x) (row nodes sep g l).
Proof.
  intros H. apply in_split in H as [a [b ->]]. eexists. apply in_row. apply nodes_self.
Qed.
Ltac held := intros g; cbn [nodes];
  match goal with
  | |- exists g', In (g', ?x) _ =>
    eexists; first
      [ right; apply nodes_self
      | right; apply in_app_iff; left; apply nodes_self
      | right; apply in_app_iff; right; apply nodes_self
      | right; apply in_app_iff; right; apply in_app_iff; left; apply nodes_self
      | right; apply in_app_iff; right; apply in_app_iff; right; apply nodes_self ]
  end.
Lemma child_held o p e p' x : child_of o p e p' x -> holds e x.
Proof.
  intros C. destruct C; try (held; fail).
  - intros g. cbn [nodes]. destruct (holds_item 1 _ _ (g + 1) H) as [g' Hg]. exists g'. right. exact Hg.
  - intros g. cbn [nodes].
    destruct (holds_item 0 (a ++ x :: b) x (g + 1)) as [g' Hg]; [apply in_elt|]. exists g'. right. exact Hg.
  - intros g. cbn [nodes]. destruct (holds_item 1 _ _ (g + 1) H) as [g' Hg]. exists g'. right. exact Hg.
Qed.
Lemma inside_held o p e p' x : inside o p e p' x -> holds e x.
Proof.
  induction 1 as [|p e p' x p'' y C _ IH]; [apply holds_self|].
  exact (holds_trans _ _ _ (child_held _ _ _ _ _ C) IH).
Qed.
Lemma left_part_held p l p' x : left_part p l p' x -> holds l x.
Proof.
  induction 1 as [|p n l op r O|p n l op r p' x O _ IH]; [apply holds_self|held|].
  eapply holds_trans; [|exact IH]. held.
Qed.
Lemma part_held o p e p' x : part o p e p' x -> holds e x.
Proof.
  intros C. destruct C; try (held; fail).
  - eapply holds_trans; [|exact (left_part_held _ _ _ _ H0)]. held.
  - intros g. cbn [nodes]. destruct (holds_item 1 _ _ (g + 1) H) as [g' Hg]. exists g'. right. exact Hg.
  - intros g. cbn [nodes].
    destruct (holds_item 0 (a ++ x :: b) x (g + 1)) as [g' Hg]; [apply in_elt|]. exists g'. right. exact Hg.
  - intros g. cbn [nodes]. destruct (holds_item 1 _ _ (g + 1) H0) as [g' Hg]. exists g'. right. exact Hg.
  - eapply holds_trans; [|instantiate (1 := EArg n' (Some c) v sl); held].
    intros g. cbn [nodes]. destruct (holds_item 1 _ _ (g + 1) H0) as [g' Hg]. exists g'. right. exact Hg.
  - eapply holds_trans; [|instantiate (1 := EArg n' nm (Some v) sl); held].
    intros g. cbn [nodes]. destruct (holds_item 1 _ _ (g + 1) H0) as [g' Hg]. exists g'. right. exact Hg.
Qed.
Lemma visited_held o p e p' x : visited o p e p' x -> holds e x.
Proof.
  induction 1 as [|p e p' x p'' y _ C _ IH]; [apply holds_self|].
  exact (holds_trans _ _ _ (part_held _ _ _ _ _ C) IH).
Qed.
Lemma root_holds r e x : In e (r_exprs r) -> holds e x -> exists g, In (g, x) (root_nodes r).
Proof.
  intros H Hx. apply in_split in H as [a [b E]]. unfold root_nodes. rewrite E.
  destruct (Hx (bom_tokens r + list_sum (map (fun z => List.length (etokens z) + 0) a))) as [g' Hg].
  exists g'. apply in_row. exact Hg.
Qed.
Lemma in_file_node o r p x : in_file o r p x -> exists g, In (g, x) (root_nodes r).
Proof. intros [e [H V]]. exact (root_holds r e x H (visited_held _ _ _ _ _ V)). Qed.
Lemma root_below r g x : In (g, x) (root_nodes r) -> incl (nodes g x) (root_nodes r).
Proof.
  intros H. destruct (row_in _ _ _ _ _ H) as [a [z [b [E Hz]]]]. unfold root_nodes. rewrite E.
  intros y Hy. apply in_row. exact (nodes_below _ _ _ _ Hz _ Hy).
Qed.

(** * Shapes *)

Lemma nodes_shaped e : forall g g' x, In (g', x) (nodes g e) -> shaped e -> shaped x.
Proof.
  assert (RW : forall s sep l, Forall (fun e => forall g g' x, In (g', x) (nodes g e) -> shaped e -> shaped x) l ->
               forall g g' x, In (g', x) (row nodes sep g l) ->
               all_of (fun e => sort_of e = s /\ shaped e) l -> shaped x).
  { intros s sep l F g g' x H A. destruct (row_in _ _ _ _ _ H) as [a [z [b [-> Hz]]]].
    apply Forall_app in F as [_ F]. pose proof (Forall_inv F _ _ _ Hz) as I. apply I.
    apply all_of_Forall, Forall_app in A as [_ A]. exact (proj2 (Forall_inv A)). }
  induction e using expr_ind'; intros g0 g' x [E|E] Sh;
    try (injection E as <- <-; exact Sh); cbn [nodes shaped] in *;
    repeat match goal with
    | E : In _ (_ ++ _) |- _ => apply in_app_iff in E as [E|E]
    | E : In _ [] |- _ => destruct E
    | H : Popt _ ?d |- _ => destruct d; cbn [Popt opt_all] in *
    | H : _ /\ _ |- _ => destruct H
    end; eauto.
Qed.

(** * Gaps *)

Lemma source_gap_eq src t g k k' gap gap' :
  source_gap src t g k gap -> source_gap src t g k' gap' -> k = k' /\ gap = gap'.
Proof.
  intros (b & s & f & a & E & L & S) (b' & s' & f' & a' & E' & L' & S').
  rewrite E in E'. destruct (two_splits _ _ _ _ _ _ E') as [[M [-> _]]|[[M [-> _]]|[-> X]]].
  - rewrite token_leaves_app, app_length in L'. cbn in L'. lia.
  - rewrite token_leaves_app, app_length in L. cbn in L. lia.
  - injection X as -> -> _. rewrite S in S'. injection S' as ->. auto.
Qed.
Lemma breaks_pos gap : In LF gap -> 0 < breaks_in false gap.
Proof.
  unfold breaks_in. induction gap as [|c r IH]; intros H; [destruct H|]. cbn [from_line_end].
  destruct (c =? LF)%N eqn:E; [|destruct H as [->|H]; [rewrite N.eqb_refl in E; discriminate|auto]].
  apply N.eqb_eq in E. subst c. cbn. lia.
Qed.

Section Source.
Variables (rf : bool) (src : text) (t : ts) (r : root).
Hypothesis W : well_parsed src t.
Hypothesis F : source_root rf src t = Some r.

Lemma node_gap g e : In (g, e) (root_nodes r) -> etokens e <> [] ->
  exists k gap, source_gap src t g k gap /\
    (cr_paired gap -> (n_newline (notes_of e) = true <-> In LF gap) /\
                      n_lines (notes_of e) = breaks_in (g =? 0) gap).
Proof.
  intros H N. destruct (source_right rf src t r W F g e H) as [[[Z _]|R] _]; [contradiction|].
  destruct R as (before & own & s & f & gap & ((after & E) & L & ((k & e' & r' & Eo) & _) & _) & _ & G & C & _).
  exists k, gap. split.
  - exists before, s, e', (r' ++ after). rewrite E, Eo. cbn [app]. auto.
  - intros CP. destruct (C CP) as [C1 [C2 _]]. split; [exact C1|]. rewrite C2. f_equal.
    rewrite no_token_leaves. rewrite <- L. destruct (token_leaves before); reflexivity.
Qed.
Lemma node_break g e : In (g, e) (root_nodes r) -> etokens e <> [] -> line_break src t g ->
  n_newline (notes_of e) = true /\ (0 < g -> 0 < n_lines (notes_of e)).
Proof.
  intros H N (k' & gap' & G' & CP & B). destruct (node_gap g e H N) as (k & gap & G & C).
  destruct (source_gap_eq _ _ _ _ _ _ _ G G') as [_ ->]. destruct (C CP) as [C1 C2].
  split; [apply C1, B|]. intros P. rewrite C2. destruct g; [lia|]. apply breaks_pos, B.
Qed.

Lemma root_shape g e : In (g, e) (root_nodes r) -> shaped e.
Proof.
  intros H. pose proof (source_front_shaped rf src t r F) as S. unfold root_shaped in S.
  destruct (row_in _ _ _ _ _ H) as [a [z [b [E Hz]]]]. rewrite E in S.
  apply all_of_Forall, Forall_app in S as [_ S]. destruct (Forall_inv S) as [_ S'].
  exact (nodes_shaped _ _ _ _ Hz S').
Qed.

(** * C43 *)

Lemma root_text : n_src (r_notes r) = src.
Proof.
  destruct (source_root_front rf src t r F) as [g [s [P [O H]]]].
  pose proof (open_green_tokens g s O) as T.
  destruct (tokens_and_trivia_holds src t g W P) as [qs [T' [Fm _]]].
  rewrite T' in T. assert (qs = syn_tokens s) as ->.
  { revert T. generalize (syn_tokens s). clear. induction qs as [|p q IH]; intros [|x l] H;
      try discriminate H; [reflexivity|]. cbn in H. injection H as -> H. f_equal. auto. }
  rewrite <- Fm. unfold front_end, typed_root in H.
  destruct s as [k cs|]; [|discriminate H]. destruct (kind_eqb k R_ROOT); [|discriminate H].
  revert H.
  repeat match goal with
  | |- context [match ?x with _ => _ end] => destruct x; try discriminate
  end; unfold check;
  repeat match goal with
  | |- context [if ?x then _ else _] => destruct x; try discriminate
  | |- context [match ?x with Some _ => _ | None => _ end] => destruct x; try discriminate
  end; intros H; injection H as <-; reflexivity.
Qed.

(** * C42 *)

Lemma copied_source g y : In (g, y) (root_nodes r) -> etokens y <> [] ->
  exists before own s f code, spot src t g y before own s f /\ slice s f src = Some code /\
    n_src (notes_of y) = code.
Proof.
  intros H N. destruct (source_right rf src t r W F g y H) as [[[Z _]|R] _]; [contradiction|].
  destruct R as (before & own & s & f & gap & S & C & _). eauto 10.
Qed.

(** * C44 *)

Lemma spaced_source shows cap es : forall g out,
  Forall (fun e => etokens e <> []) es ->
  (forall a e b, es = a ++ e :: b ->
     In (g + list_sum (map (fun x => List.length (etokens x)) a), e) (root_nodes r)) ->
  spaced shows cap es out -> spaced_at src t shows cap g es out.
Proof.
  induction es as [|e es IH]; intros g out N I S; [inversion S|].
  apply Forall_cons_iff in N as [Ne N].
  destruct es as [|e' es].
  - inversion S; subst. constructor; assumption.
  - inversion S as [|? b ? ? out' B Sh S' E1 E2]; subst.
    assert (H : In (g + List.length (etokens e), e') (root_nodes r)).
    { specialize (I [e] e' es eq_refl). cbn in I. rewrite Nat.add_0_r in I. exact I. }
    destruct (node_gap _ _ H (Forall_inv N)) as (k & gap & G & C).
    eapply spaced_at_cons; [exact B|exact Sh|exact G| |].
    + intros CP. destruct (C CP) as [_ C2]. rewrite C2. f_equal.
      destruct (etokens e); [contradiction|]. cbn [List.length]. apply Nat.eqb_neq. lia.
    + apply IH; [exact N| |exact S']. intros a x c E.
      specialize (I (e :: a) x c). rewrite E in I. specialize (I eq_refl).
      cbn [map list_sum fold_right] in I. unfold list_sum. rewrite Nat.add_assoc in I. exact I.
Qed.
Lemma shapes_tokens es : all_of (fun e => sort_of e = SoExpr /\ shaped e) es ->
  Forall (fun e => etokens e <> []) es.
Proof.
  intros A. apply all_of_Forall in A. eapply Forall_impl; [|exact A].
  intros e [S1 S2]. exact (shaped_tokens e S2 S1).
Qed.
Lemma sum_plain a : list_sum (map (fun z => List.length (etokens z) + 0) a) =
  list_sum (map (fun z => List.length (etokens z)) a).
Proof. f_equal. apply map_ext. intros z. apply Nat.add_0_r. Qed.
Lemma spaced_root shows cap out : spaced shows cap (r_exprs r) out ->
  spaced_at src t shows cap (bom_tokens r) (r_exprs r) out.
Proof.
  apply spaced_source.
  - apply shapes_tokens. exact (source_front_shaped rf src t r F).
  - intros a e b E. unfold root_nodes. rewrite E. apply in_row. rewrite sum_plain. apply nodes_self.
Qed.
Lemma spaced_braced g n es shows cap out : In (g, EBraced n es) (root_nodes r) ->
  spaced shows cap es out -> spaced_at src t shows cap (g + 1) es out.
Proof.
  intros H. apply spaced_source.
  - apply shapes_tokens. exact (root_shape _ _ H).
  - intros a e b E. apply (root_below r _ _ H). cbn [nodes]. right. rewrite E. apply in_row.
    rewrite sum_plain. apply nodes_self.
Qed.

(** * C46 *)

Lemma first_param g n x l : In (g, EParams n (x :: l)) (root_nodes r) ->
  line_break src t (g + 1) -> n_newline (notes_of x) = true.
Proof.
  intros H B.
  assert (Hx : In (g + 1, x) (root_nodes r)).
  { apply (root_below r _ _ H). cbn [nodes row]. right. apply in_app_iff. left. apply nodes_self. }
  refine (proj1 (node_break _ _ Hx _ B)).
  pose proof (root_shape _ _ H) as [[So Sh] _]. destruct x; try discriminate So.
  cbn [shaped] in Sh. destruct Sh as [[S1 S2] _]. pose proof (shaped_tokens _ S2 S1) as N.
  cbn [etokens]. destruct (etokens x); [contradiction|discriminate].
Qed.
Lemma right_operand g n l op x : In (g, EBinary n l op x) (root_nodes r) ->
  line_break src t (g + List.length (etokens l) + 1) -> n_newline (notes_of x) = true.
Proof.
  intros H B.
  assert (Hx : In (g + List.length (etokens l) + 1, x) (root_nodes r)).
  { apply (root_below r _ _ H). cbn [nodes]. right. apply in_app_iff. right. apply nodes_self. }
  refine (proj1 (node_break _ _ Hx _ B)).
  pose proof (root_shape _ _ H) as [_ [S1 S2]]. exact (shaped_tokens _ S2 S1).
Qed.
Lemma chain_first e h l : FmtPathSpec.chain e h l -> forall g, exists n a op x rest,
  l = (op, x) :: rest /\ etokens a = etokens h /\ In (g, EBinary n a op x) (nodes g e).
Proof.
  induction 1 as [n a op x O N|n a op x h l O _ IH]; intros g.
  - exists n, a, op, x, []. repeat split. apply nodes_self.
  - destruct (IH g) as (n' & a' & op' & x' & rest & -> & Ea & Hi).
    exists n', a', op', x', (rest ++ [(op, x)]). split; [reflexivity|]. split; [exact Ea|].
    cbn [nodes]. right. apply in_app_iff. left. exact Hi.
Qed.
Lemma chain_operand g e h l : FmtPathSpec.chain e h l -> In (g, e) (root_nodes r) ->
  line_break src t (g + List.length (etokens h) + 1) ->
  match l with (_, x) :: _ => n_newline (notes_of x) = true | [] => False end.
Proof.
  intros C H B. destruct (chain_first e h l C g) as (n & a & op & x & rest & -> & Ea & Hi).
  rewrite <- Ea in B. exact (right_operand _ _ _ _ _ (root_below r _ _ H _ Hi) B).
Qed.

Lemma holes_commas hs : forall g l i, Forall hole hs -> l <> [] ->
  commas_right src t g (hs ++ l) -> i < List.length hs -> 0 < g -> line_break src t (g + i) ->
  Exists hole_break hs.
Proof.
  induction hs as [|x hs IH]; intros g l i Hs N C L P B; [cbn in L; lia|].
  apply Forall_cons_iff in Hs as [(nt & sl & -> & _) Hs].
  cbn [app commas_right] in C. destruct (hs ++ l) as [|y r'] eqn:E.
  { apply app_eq_nil in E as [_ E]. contradiction. }
  rewrite <- E in C. cbn [etokens opt_list app List.length] in C. destruct C as [C0 C].
  rewrite Nat.add_0_r in *. destruct i as [|i].
  - left. rewrite Nat.add_0_r in B. destruct B as (k' & gap' & G' & CP & B).
    destruct C0 as (gap & G & Q). destruct (source_gap_eq _ _ _ _ _ _ _ G G') as [_ ->].
    cbn [hole_break]. rewrite (Q CP). destruct g; [lia|]. apply breaks_pos, B.
  - right. apply (IH (g + 1) l i Hs N C); [cbn in L; lia|lia|].
    replace (g + 1 + i) with (g + S i) by lia. exact B.
Qed.
Lemma holes_width hs : Forall hole hs ->
  list_sum (map (fun z => List.length (etokens z) + 1) hs) = List.length hs.
Proof.
  induction 1 as [|x hs (nt & sl & -> & _) _ IH]; [reflexivity|]. cbn [map etokens opt_list app List.length]. exact (f_equal S IH).
Qed.
Lemma first_argument g n k rc hs a rest i : In (g, EArgs n k rc (hs ++ a :: rest)) (root_nodes r) ->
  Forall hole hs -> etokens a <> [] -> i <= List.length hs -> line_break src t (g + 1 + i) ->
  breaks_first hs a.
Proof.
  intros H Hs N L B. destruct (Nat.eq_dec i (List.length hs)) as [E|E].
  - left.
    assert (Ha : In (g + 1 + i, a) (root_nodes r)).
    { apply (root_below r _ _ H). cbn [nodes]. right. apply in_row.
      match goal with |- In _ (nodes ?j _) => replace j with (g + 1 + i) end; [apply nodes_self|].
      rewrite E, <- (holes_width _ Hs). reflexivity. }
    apply (node_break _ _ Ha N B). lia.
  - right. destruct (source_right rf src t r W F _ _ H) as [_ C].
    eapply (holes_commas hs (g + 1) (a :: rest) i Hs); [discriminate|exact C|lia|lia|exact B].
Qed.
End Source.
