(** Every formatted tree reads as its tokens. *)
From Coq Require Import List NArith Bool Arith Lia Permutation String.
From Verif Require Import Text TextFacts LineEndingSpec LineEndingModel LineEndingProofs SettingsModel
  SyntaxKind DirectiveModel FmtTree IrModel TableModel FmtModel FmtSpec FmtProofs FmtListProofs
  FmtRunProofs FmtTidyProofs FmtRootProofs FmtFactProofs FmtEdgeProofs FmtRowProofs LexSpec LexProofs LexRunProofs
  LexSealProofs.
Import ListNotations.
Open Scope N_scope.

(** * What comes before and after each sort of node *)

Definition before (s : sort) : char -> bool :=
  match s with
  | SoExpr | SoParam | SoArg | SoName => start_char
  | SoParams => N.eqb 40
  | SoDefault => N.eqb 61
  | SoElse => N.eqb 101
  | SoArgs => follow_char
  end.
Definition after (s : sort) : char -> bool :=
  match s with SoArg | SoName => close_char | _ => follow_char end.

Lemma below_atom : below atom_char start_char.
Proof. intros c H. unfold start_char. rewrite H. reflexivity. Qed.
Lemma below_close_follow : below close_char follow_char.
Proof. exact close_follow. Qed.
Lemma below_close_start : below close_char start_char.
Proof. exact close_start. Qed.
Lemma below_eqb k f : f k = true -> below (N.eqb k) f.
Proof. intros F c E. apply N.eqb_eq in E. subst. exact F. Qed.

(** * Trees *)

Definition good_sort (s : sort) (ts : list token) : Prop :=
  s = SoArg /\ ts = [] \/ good (before s) (after s) ts.
Ltac op_single := apply op_ok_single; reflexivity.
Ltac op_good := apply single_good; op_single.
Lemma keyword_single f g k s : below g follow_char -> keyword_ok f follow_char k s = true ->
  single f g (tk k s).
Proof.
  intros B H. destruct (keyword_ok_single f k s H) as [P [N [D [S [l [W L]]]]]].
  split; [exact P|]. split; [exact N|]. split; [exact D|]. split; [exact S|]. exists l.
  split; [exact W|exact (lets_mono _ _ _ B L)].
Qed.
Ltac kw_single := apply keyword_single; [first [apply below_no|apply below_refl]|reflexivity].
Ltac kw_good := apply single_good; kw_single.
Lemma good_cons f g f' g' t ts : good f g [t] -> good f' g' ts -> good f g' (t :: ts).
Proof. exact (good_app f g f' g' [t] ts). Qed.
Lemma good_opt f g h a b : good f g a -> b = [] \/ good h g b -> good f g (a ++ b).
Proof. intros A [->|B]; [rewrite app_nil_r; exact A|exact (good_app _ _ _ _ _ _ A B)]. Qed.
Lemma good_skip f g h k a b : a = [] \/ good h k a -> good f g b -> good any_char g (a ++ b).
Proof.
  intros [->|A] B.
  - exact (good_conseq _ _ _ _ _ (below_any f) (below_refl g) B).
  - exact (good_conseq _ _ _ _ _ (below_any h) (below_refl g) (good_app _ _ _ _ _ _ A B)).
Qed.
Definition maybe_good (ts : list token) : Prop := ts = [] \/ good any_char no_char ts.
Lemma good_maybe f g ts : good f g ts -> maybe_good ts.
Proof. intros H. right. exact (good_conseq _ _ _ _ _ (below_any f) (below_no g) H). Qed.
Lemma maybe_app a b : maybe_good a -> maybe_good b -> maybe_good (a ++ b).
Proof.
  intros [->|A] B; [exact B|]. destruct B as [->|B]; [rewrite app_nil_r; right; exact A|].
  right. exact (good_app _ _ _ _ _ _ A B).
Qed.
Lemma maybe_concat l : Forall maybe_good l -> maybe_good (List.concat l).
Proof. induction 1; [left; reflexivity|apply maybe_app; assumption]. Qed.
Lemma comma_good : good any_char any_char [tCOMMA].
Proof. op_good. Qed.
Lemma maybe_commas l : Forall maybe_good l -> maybe_good (commas l).
Proof.
  induction 1 as [|x l H F IH]; [left; reflexivity|]. destruct l as [|y l]; [exact H|].
  change (commas (x :: y :: l)) with (x ++ [tCOMMA] ++ commas (y :: l)).
  apply maybe_app; [exact H|]. apply maybe_app; [exact (good_maybe _ _ _ comma_good)|exact IH].
Qed.
Lemma good_closed f g h k a b c : good f g a -> maybe_good b -> good h k c -> good f k (a ++ b ++ c).
Proof.
  intros A B C. apply (good_app _ _ any_char _ _ _ A). destruct B as [->|B].
  - exact (good_conseq _ _ _ _ _ (below_any h) (below_refl k) C).
  - exact (good_app _ _ _ _ _ _ B C).
Qed.
Lemma brack2_good f g : f 93 = true -> good f g [tRBRACK2].
Proof.
  intros F. assert (L : forall r, lexemes (tRBRACK2 :: r) = [93] :: [93] :: lexemes r) by reflexivity.
  assert (P : parted [tRBRACK2]) by (intros r; cbn [app]; rewrite !L; reflexivity).
  assert (W : whole [93] (LOperator [93])) by (split; reflexivity).
  split; try exact P; try discriminate; try exact F.
  - reflexivity.
  - rewrite L. repeat constructor; exists (LOperator [93]); exact W.
  - rewrite L. cbn [lexemes last]. intros l Wl. rewrite (whole_unique _ _ _ Wl W).
    apply (lets_mono any_char); [intros c _; reflexivity|]. apply op_lets; reflexivity.
Qed.
Lemma brack2_seal f g : f 93 = true -> seal f (token_doc tRBRACK2) g.
Proof.
  intros F. apply seal_cat_nil. change (DCat (token_doc tRBRACK2) DNil) with (cat (map token_doc [tRBRACK2])).
  apply (seal_tokens f g [tRBRACK2] [[93]] (Inside (LOperator [93]) [93])).
  - reflexivity.
  - exact F.
  - apply (lets_mono any_char); [intros c _; reflexivity|]. apply op_lets; reflexivity.
  - reflexivity.
  - intros r. reflexivity.
  - intros p B. cbn [token_ops map feeds]. cbn [hd map List.concat t_text tRBRACK2 app] in B.
    change (norm_token tRBRACK2) with tRBRACK2.
    rewrite (token_feeds p tRBRACK2 (held p ++ [[93]]) (Inside (LOperator [93]) [93])).
    + rewrite app_nil_r. reflexivity.
    + exact (enter p 93 [93] B).
    + rewrite <- app_assoc. reflexivity.
Qed.
Lemma binary_single op : operator binary_kinds op \/ special_operator op -> single any_char no_char op.
Proof.
  intros [O|S]; [|apply special_single, S]. apply (operator_single _ _ _ _ O). reflexivity.
Qed.
Lemma unary_single op : operator unary_kinds op -> single start_char start_char op.
Proof. intros O. apply (operator_single _ _ _ _ O). reflexivity. Qed.

Lemma good_tree e : shaped e -> everywhere lexical_node e -> good_sort (sort_of e) (etokens e).
Proof.
  assert (Ex : forall x, (shaped x -> everywhere lexical_node x -> good_sort (sort_of x) (etokens x)) ->
    sort_of x = SoExpr /\ shaped x -> everywhere lexical_node x -> good start_char follow_char (etokens x)).
  { intros x H [So Sh] E. specialize (H Sh E). rewrite So in H. destruct H as [[X _]|H]; [discriminate|exact H]. }
  assert (Ls : forall s l, Forall (fun x => shaped x -> everywhere lexical_node x -> good_sort (sort_of x) (etokens x)) l ->
    all_of (fun x => sort_of x = s /\ shaped x) l -> all_of (everywhere lexical_node) l ->
    Forall maybe_good (map etokens l)).
  { intros s l F. induction F as [|x l H F IH]; intros A B; [constructor|].
    destruct A as [[_ Sh] A], B as [B1 B2]. constructor; [|exact (IH A B2)].
    destruct (H Sh B1) as [[_ ->]|G]; [left; reflexivity|exact (good_maybe _ _ _ G)]. }
  induction e as [n k ts|n op a IHa|n l op r IHl IHr|n l op r IHl IHr|n l op r IHl IHr|n name ps b IHp IHb
    |n items IHi|n a d IHa IHd|n v IHv|n c t el IHc IHt IHe|n nl a IHa|n v s b IHv IHs IHb|n c b IHc IHb
    |n b IHb|n es IHs|n b IHb|n f args IHf IHa|n k rc items IHi|n nm v sl IHn IHv|n nm IHn] using expr_ind';
    intros Sh Ev; pose proof (everywhere_self _ _ Ev) as [Tk _]; destruct Ev as [_ Ev];
    cbn [shaped] in Sh; cbn [etokens tokens_lexical sort_of] in *; unfold good_sort; cbn [before after].
  - right. apply (good_conseq atom_char start_char follow_char follow_char);
      [exact below_atom|apply below_refl|apply leaf_good, Tk].
  - right. apply (good_cons _ start_char start_char); [apply single_good, unary_single, Tk|exact (Ex a IHa Sh Ev)].
  - right. destruct Sh as [Sl Sr], Ev as [El Er]. apply (good_app _ follow_char any_char); [exact (Ex l IHl Sl El)|].
    apply (good_cons _ no_char start_char); [apply single_good, binary_single, Tk|exact (Ex r IHr Sr Er)].
  - right. destruct Sh as [Sl Sr], Ev as [El Er]. apply (good_app _ follow_char any_char); [exact (Ex l IHl Sl El)|].
    apply (good_cons _ no_char start_char); [|exact (Ex r IHr Sr Er)].
    apply single_good, (operator_single _ _ _ _ Tk). reflexivity.
  - right. destruct Sh as [Sl Sr], Ev as [El Er]. apply (good_app _ follow_char any_char); [exact (Ex l IHl Sl El)|].
    apply (good_cons _ no_char start_char); [|exact (Ex r IHr Sr Er)].
    apply single_good, (operator_single _ _ _ _ Tk). reflexivity.
  - right. destruct Sh as [[Sp Shp] Sb], Ev as [Ep Eb]. specialize (IHp Shp Ep). rewrite Sp in IHp.
    destruct IHp as [[X _]|IHp]; [discriminate|].
    apply (good_cons _ no_char (N.eqb 40)).
    + destruct Tk as [[K|[K|[]]] T]; rewrite <- K in T; injection T as T;
        rewrite (token_eta name), <- K, <- T; apply single_good; [kw_single|op_single].
    + exact (good_app _ _ _ _ _ _ IHp (Ex b IHb Sb Eb)).
  - right. apply (good_closed _ any_char any_char _ [tLPAREN] _ [tRPAREN]); [op_good| |op_good].
    apply maybe_commas, (Ls SoParam _ IHi Sh Ev).
  - right. destruct Sh as [Sa Sd], Ev as [Ea Ed]. apply (good_opt _ _ (N.eqb 61)); [exact (Ex a IHa Sa Ea)|].
    destruct d as [d|]; [|left; reflexivity]. right. destruct Sd as [Sd Shd]. specialize (IHd Shd Ed).
    rewrite Sd in IHd. destruct IHd as [[X _]|G]; [discriminate|exact G].
  - right. apply (good_cons _ no_char start_char); [op_good|exact (Ex v IHv Sh Ev)].
  - right. destruct Sh as [Sc [St Se]], Ev as [Ec [Et Ee]].
    apply (good_cons _ no_char any_char); [kw_good|]. apply (good_cons _ no_char any_char); [op_good|].
    apply (good_app _ follow_char any_char);
      [apply (good_conseq start_char _ follow_char); [apply below_any|apply below_refl|exact (Ex c IHc Sc Ec)]|].
    apply (good_cons _ no_char start_char); [op_good|]. apply (good_opt _ _ (N.eqb 101)); [exact (Ex t IHt St Et)|].
    destruct el as [x|]; [|left; reflexivity]. right. destruct Se as [Sx Shx]. specialize (IHe Shx Ee).
    rewrite Sx in IHe. destruct IHe as [[X _]|G]; [discriminate|exact G].
  - right. apply (good_cons _ no_char start_char); [kw_good|exact (Ex a IHa Sh Ev)].
  - right. destruct Sh as [Sv [Ss Sb]], Ev as [E1 [E2 E3]].
    apply (good_cons _ no_char any_char); [kw_good|]. apply (good_cons _ no_char start_char); [op_good|].
    apply (good_app _ follow_char any_char); [exact (Ex v IHv Sv E1)|].
    apply (good_cons _ no_char start_char); [kw_good|]. apply (good_app _ follow_char any_char); [exact (Ex s IHs Ss E2)|].
    apply (good_cons _ no_char start_char); [op_good|exact (Ex b IHb Sb E3)].
  - right. destruct Sh as [Sc Sb], Ev as [E1 E2].
    apply (good_cons _ no_char any_char); [kw_good|]. apply (good_cons _ no_char start_char); [op_good|].
    apply (good_app _ follow_char any_char); [exact (Ex c IHc Sc E1)|].
    apply (good_cons _ no_char start_char); [op_good|exact (Ex b IHb Sb E2)].
  - right. apply (good_cons _ no_char start_char); [kw_good|exact (Ex b IHb Sh Ev)].
  - right. apply (good_closed _ no_char any_char _ [tLCURLY] _ [tRCURLY]); [op_good| |op_good].
    apply maybe_concat, (Ls SoExpr _ IHs Sh Ev).
  - right. apply (good_closed _ no_char any_char _ [tLPAREN] _ [tRPAREN]); [op_good| |op_good].
    exact (good_maybe _ _ _ (Ex b IHb Sh Ev)).
  - right. destruct Sh as [Sf [Sa Sha]], Ev as [Ef Ea]. specialize (IHa Sha Ea). rewrite Sa in IHa.
    destruct IHa as [[X _]|G]; [discriminate|]. exact (good_app _ _ _ _ _ _ (Ex f IHf Sf Ef) G).
  - right. apply (good_closed _ no_char any_char _ [l_token k] _ [r_token k]).
    + destruct k; op_good.
    + apply maybe_commas, (Ls SoArg _ IHi Sh Ev).
    + destruct k; [op_good|op_good|apply brack2_good; reflexivity].
  - destruct Sh as [Sn Sv], Ev as [En Ev].
    assert (V : forall x, v = Some x -> good start_char close_char (etokens x)).
    { intros x ->. apply (good_conseq start_char _ follow_char); [apply below_refl|exact below_close_follow|].
      exact (Ex x IHv Sv Ev). }
    assert (M : forall x, nm = Some x -> good start_char close_char (etokens x)).
    { intros x ->. destruct Sn as [Sx Shx]. cbn [Popt] in IHn. specialize (IHn Shx En). rewrite Sx in IHn.
      destruct IHn as [[X _]|G]; [discriminate|]. cbn [before after] in G.
      exact G. }
    destruct nm as [x|], v as [y|]; cbn [opt_list].
    + right. exact (good_app _ _ _ _ _ _ (M x eq_refl) (V y eq_refl)).
    + right. rewrite app_nil_r. exact (M x eq_refl).
    + right. exact (V y eq_refl).
    + left. split; reflexivity.
  - right. apply (good_app _ follow_char any_char); [exact (Ex nm IHn Sh Ev)|op_good].
Qed.

(** * Copied nodes *)

Lemma code_last a t : is_comment t = false -> last (code (a ++ [t])) [] = t.
Proof.
  intros C. rewrite code_app. change (code [t]) with (if negb (is_comment t) then [t] else []).
  rewrite C. apply last_last.
Qed.
Lemma last_snoc {A} (a : list A) x d : last (a ++ [x]) d = x.
Proof. apply last_last. Qed.
Lemma held_norm p : Forall2 like_lexeme (held p) (held (norm_place p)).
Proof. destruct p; [constructor|]. constructor; [apply like_drop|constructor]. Qed.
Lemma blocks_fresh p c y : blocks p c -> fresh_text p (c :: y) = true.
Proof.
  destruct p as [|l t]; [reflexivity|]. cbn. intros [A B]. rewrite A, B. reflexivity.
Qed.
Lemma verb_sees src ts f g p : reads_as src ts -> good f g ts -> lets f p -> marked p ->
  exists b p', see_all p (drop_cr src) = Some (b, p') /\ fresh_text p (drop_cr src) = true /\ lets g p' /\
    code b ++ held p' = held p ++ lexemes (map norm_token ts).
Proof.
  intros [L [E [C [La Fi]]]] [G1 G2 G3 G4 G5 G6 G7] Lp M.
  destruct L as [|x L].
  { cbn in C. congruence. }
  destruct Fi as [Cx [s ->]].
  assert (Cf : exists r, lexemes ts = x :: r).
  { rewrite <- C. unfold code. cbn [filter]. rewrite Cx. eexists. reflexivity. }
  destruct Cf as [r Cf]. rewrite Cf in G5, G6. cbn [hd] in G5.
  inversion G6 as [|? ? [lx Wx] _]; subst.
  destruct (whole_cons x lx Wx) as [c [x' [-> Bc]]]. cbn [starts_with] in G5.
  unfold lex in E. destruct (see_all Between ((c :: x') ++ s)) as [[a p0]|] eqn:Se; [|discriminate].
  destruct (the_end p0) as [b0|] eqn:En; [|discriminate]. injection E as E.
  assert (Hb : b0 = held p0) by (destruct p0; cbn in En |- *; [|destruct (complete_lexeme l); [|discriminate]]; congruence).
  subst b0. destruct (see_norm_all _ _ _ Se) as [a' [Sn Fn]].
  assert (Hd : exists y, drop_cr ((c :: x') ++ s) = c :: y).
  { cbn [app]. rewrite drop_cr_cons. destruct (crlf_head c (x' ++ s)) eqn:H; [|eexists; reflexivity].
    apply crlf_head_true in H. destruct H as [r' [-> _]]. discriminate. }
  destruct Hd as [y Hd]. rewrite Hd in *.
  exists (held p ++ a'), (norm_place p0). split.
  { rewrite (enter p c y (lets_blocks f p c Lp G5)), Sn. reflexivity. }
  split; [exact (blocks_fresh p c y (lets_blocks f p c Lp G5))|].
  assert (Nc : code (held p0) = held p0).
  { destruct p0 as [|l t]; [reflexivity|]. cbn [held] in *. rewrite <- E, last_snoc in La.
    cbn [code filter]. rewrite La. reflexivity. }
  split.
  - destruct p0 as [|l t]; [exact I|]. cbn [held] in *.
    assert (Lt : last (lexemes ts) [] = t).
    { rewrite <- C, <- E. apply code_last. rewrite <- E, last_snoc in La. exact La. }
    rewrite Lt in G7. cbn [the_end] in En. destruct (complete_lexeme l) eqn:Cl; [|discriminate].
    exact (G7 l (conj (see_all_fresh _ Between _ _ I Se) Cl)).
  - rewrite code_app, (held_code p M (lets_no f p Lp)), <- app_assoc. f_equal.
    assert (Nc' : code (held (norm_place p0)) = held (norm_place p0)).
    { destruct p0 as [|l t]; [reflexivity|]. cbn [norm_place held] in *. cbn [code filter] in *.
      rewrite is_comment_same. destruct (is_comment t); [discriminate|reflexivity]. }
    rewrite <- Nc', <- code_app.
    rewrite (like_code (a ++ held p0) (a' ++ held (norm_place p0))).
    + rewrite E, C, G3. reflexivity.
    + apply Forall2_app; [exact Fn|apply held_norm].
    + intros z _ Z. rewrite is_comment_same. exact Z.
Qed.
Lemma empty_src src : reads_as src [] -> src = [].
Proof.
  intros [[|x L] [E [C [_ F]]]]; [exact F|]. destruct F as [Cx _]. exfalso.
  cbn [lexemes] in C. unfold code in C. cbn [filter] in C. rewrite Cx in C. discriminate.
Qed.
Lemma seal_verb e : shaped e -> everywhere lexical_node e ->
  seal (before (sort_of e)) (DWord (WVerb e)) (after (sort_of e)).
Proof.
  intros Sh Ev m os H. cbn [glay] in H. subst os. intros p L M.
  pose proof (everywhere_self _ _ Ev) as [_ [_ R]].
  unfold lexed. cbn [flat_map op_lexed]. rewrite app_nil_r.
  cbn [feeds feed_op feed_step feed_word printed_word]. rewrite without_drop.
  destruct (good_tree e Sh Ev) as [[So E]|G].
  - rewrite E in *. rewrite (empty_src _ R), So in *. exists [], p. split; [destruct p; reflexivity|].
    split; [exact (lets_mono _ _ _ below_close_start L)|].
    split; [cbn; rewrite app_nil_r; reflexivity|apply parted_nil].
  - destruct (verb_sees _ _ _ _ p R G L M) as [b [p' [E1 [E0 [E2 E3]]]]]. rewrite E1, E0.
    exists (code b), p'. rewrite app_nil_r. split; [reflexivity|]. split; [exact E2|].
    split; [exact E3|apply G].
Qed.
Lemma seal_verbatim e : shaped e -> everywhere lexical_node e ->
  seal (before (sort_of e)) (verbatim e) (after (sort_of e)).
Proof.
  intros Sh Ev. unfold verbatim. cbn [cat]. eapply seal_cat; [apply seal_leading|].
  eapply seal_cat; [apply seal_verb; assumption|]. eapply seal_cat; [apply seal_trailing|apply seal_nil].
Qed.

(** * Printed cells *)

Lemma cell_feeds os p L p' :
  os = [] \/ firstw os -> feeds feed_op p os = Some (L, p') -> lets no_char p' ->
  exists L2 q, feeds feed_op p (word_ops (map raw_word (run os))) = Some (L2, q) /\
    L2 ++ held q = L ++ held p' /\ lets no_char q.
Proof.
  intros F H Le.
  assert (X : forall ps p, feeds feed_op p (word_ops (map raw_word ps)) = feeds feed_piece p ps).
  { induction ps as [|x ps IH]; intros p0; [reflexivity|].
    change (word_ops (map raw_word (x :: ps))) with (OStep (SWord (raw_word x)) :: word_ops (map raw_word ps)).
    cbn [feeds]. replace (feed_op p0 (OStep (SWord (raw_word x)))) with (feed_piece p0 x) by (destruct x; reflexivity).
    destruct (feed_piece p0 x) as [[a p1]|]; [rewrite IH|]; reflexivity. }
  rewrite X. destruct F as [->|[w [r [-> O]]]].
  - cbn in H. injection H as <- <-. exists [], p. split; [reflexivity|]. split; [reflexivity|exact Le].
  - cbn [feeds] in H. destruct (feed_op p _) as [[a p1]|] eqn:W; [|discriminate].
    destruct (feeds feed_op p1 r) as [[b p2]|] eqn:R; [|discriminate]. injection H as <- <-.
    destruct (unsuffix_feeds r [] p1 b p2 R Le) as [L1 [q1 [E1 [E2 E3]]]].
    unfold run. cbn [unsuffix print_steps].
    assert (Pw : print_step pstart (SWord w) = ([PWord w], {| p_line := true; p_space := false; p_empty := false |}))
      by (destruct w; try contradiction; reflexivity).
    rewrite Pw.
    destruct (print_steps_feeds (unsuffix [] r) {| p_line := true; p_space := false; p_empty := false |}
      p1 p1 L1 q1) as [L2 [q [F1 [F2 F3]]]].
    { split; [discriminate|]. split; [discriminate|reflexivity]. }
    { exact E1. }
    destruct (print_steps _ _) as [o1 st1] eqn:Ps. cbn [fst snd] in *.
    exists (a ++ L2), q. split.
    + apply (feeds_cat _ [PWord w] o1 _ a p1); [|exact F1]. cbn [feeds feed_piece].
      cbn [feed_op feed_step] in W. rewrite W, app_nil_r. reflexivity.
    + cbn [extra p_space app] in F3. rewrite <- !app_assoc, <- E2. split.
      * rewrite <- (inv_total _ _ _ _ _ F2 F3). reflexivity.
      * apply (inv_settled _ _ _ F2). destruct E3 as [->| ->]; [exact Le|exact I].
Qed.

(** Printing keeps the words. *)
Section Words.
Context {A : Type} (h : word -> list A).
Hypothesis Hc : forall c, h (WComment c) = [].
Hypothesis Hb : h WBreak = [].
Definition on_step (s : step) : list A := match s with SWord w => h w | _ => [] end.
Definition on_op (x : op) : list A := match x with OStep s => on_step s | OSuffix _ _ => [] end.
Definition on_piece (x : piece) : list A := match x with PWord w => h w | _ => [] end.
Lemma held_words hs : flat_map on_step (held_steps hs) = [].
Proof.
  induction hs as [|[g c] hs IH]; [reflexivity|].
  change (held_steps ((g, c) :: hs)) with (gap_step g :: SWord (WComment c) :: held_steps hs).
  cbn [flat_map]. rewrite IH. destruct g; cbn [gap_step on_step app]; rewrite Hc; reflexivity.
Qed.
Lemma unsuffix_words os : forall hs, flat_map on_step (unsuffix hs os) = flat_map on_op os.
Proof.
  induction os as [|x os IH]; intros hs; cbn [unsuffix flat_map]; [apply held_words|].
  destruct x as [[w| |e]|g c]; cbn [flat_map on_op on_step app]; rewrite ?IH; try reflexivity.
  rewrite flat_map_app, held_words. cbn [flat_map on_step app]. apply IH.
Qed.
Lemma print_words ss : forall st, flat_map on_piece (fst (print_steps st ss)) = flat_map on_step ss.
Proof.
  induction ss as [|s ss IH]; intros st; [reflexivity|]. cbn [print_steps].
  assert (X : flat_map on_piece (fst (print_step st s)) = on_step s).
  { destruct s as [w| |e]; cbn [print_step fst].
    - rewrite flat_map_app. destruct (p_space st); cbn [flat_map on_piece app];
        destruct w; cbn [flat_map on_piece on_step app]; rewrite ?app_nil_r; auto.
    - destruct (p_space st); reflexivity.
    - destruct (e && _), (p_line st); reflexivity. }
  destruct (print_step st s) as [o1 st1]. specialize (IH st1). destruct (print_steps st1 ss) as [o2 st2].
  cbn [fst] in *. rewrite flat_map_app, X, IH. reflexivity.
Qed.
Lemma run_words os : flat_map on_piece (run os) = flat_map on_op os.
Proof. unfold run. rewrite print_words. apply unsuffix_words. Qed.
End Words.
Definition word_lexed (w : word) : list token :=
  match w with WTok t => [t] | WVerb e => map norm_token (etokens e) | _ => [] end.
Lemma lexed_on os : lexed os = flat_map (on_op word_lexed) os.
Proof. apply flat_map_ext. intros [[[]| |]|]; reflexivity. Qed.
Lemma run_lexed os : lexed (word_ops (map raw_word (run os))) = lexed os.
Proof.
  rewrite (lexed_on os), <- (run_words word_lexed (fun _ => eq_refl) eq_refl os).
  induction (run os) as [|x ps IH]; [reflexivity|].
  change (word_ops (map raw_word (x :: ps))) with (OStep (SWord (raw_word x)) :: word_ops (map raw_word ps)).
  unfold lexed in *. cbn [flat_map]. rewrite IH. destruct x as [[]| |]; reflexivity.
Qed.
Lemma seal_cell f g os ps : seal_ops f os g -> os = [] \/ firstw os -> ps = run os ->
  seal f (raw_pieces ps) no_char.
Proof.
  intros S F -> m os' H. rewrite (glay_raw _ _ _ H). intros p L M.
  destruct (S p L M) as [L1 [p1 [E1 [E2 [E3 E4]]]]].
  destruct (cell_feeds os p L1 p1 F E1 (lets_no _ _ E2)) as [L2 [q [F1 [F2 F3]]]].
  exists L2, q. split; [exact F1|]. split; [exact F3|]. rewrite run_lexed, F2. auto.
Qed.

(** * The rules *)

Ltac sc g := apply seal_cat with g.
Lemma seal_tok f g t : single f g t -> seal f (token_doc t) g.
Proof. apply seal_single. Qed.
Ltac op_seal := apply seal_single; op_single.
Ltac kw_seal := apply seal_single; kw_single.
Lemma comma_seal g : seal close_char (token_doc tCOMMA) g.
Proof. apply (seal_exit _ _ any_char); [apply below_any|]. op_seal. Qed.
Lemma l_seal k : seal follow_char (token_doc (l_token k)) start_char.
Proof. destruct k; op_seal. Qed.
Lemma r_seal k g : seal close_char (token_doc (r_token k)) g.
Proof.
  apply (seal_exit _ _ any_char); [apply below_any|].
  destruct k; [op_seal|op_seal|apply brack2_seal; reflexivity].
Qed.
Lemma lcurly_seal f g : f 123 = true -> seal f (token_doc tLCURLY) g.
Proof.
  intros F. apply (seal_conseq (N.eqb 123) _ any_char); [apply below_eqb, F|apply below_any|]. op_seal.
Qed.
Lemma rcurly_seal f g : f 125 = true -> seal f (token_doc tRCURLY) g.
Proof.
  intros F. apply (seal_conseq (N.eqb 125) _ any_char); [apply below_eqb, F|apply below_any|]. op_seal.
Qed.
Lemma lparen_seal f g : f 40 = true -> seal f (token_doc tLPAREN) g.
Proof.
  intros F. apply (seal_conseq (N.eqb 40) _ any_char); [apply below_eqb, F|apply below_any|]. op_seal.
Qed.
Lemma rparen_seal f g : f 41 = true -> seal f (token_doc tRPAREN) g.
Proof.
  intros F. apply (seal_conseq (N.eqb 41) _ any_char); [apply below_eqb, F|apply below_any|]. op_seal.
Qed.

Lemma seal_braces d : seal start_char d follow_char -> seal start_char (in_braces d) follow_char.
Proof.
  intros S. unfold in_braces. cbn [cat]. sc start_char; [apply lcurly_seal; reflexivity|].
  sc follow_char; [apply seal_block, S|]. sc follow_char; [apply rcurly_seal; reflexivity|apply seal_nil].
Qed.
Lemma seal_braces_if_broken d : seal start_char d follow_char -> seal start_char (in_braces_if_broken d) follow_char.
Proof.
  intros S. unfold in_braces_if_broken. cbn [cat].
  sc start_char; [apply seal_if_breaks; [apply below_refl|apply lcurly_seal; reflexivity]|].
  sc follow_char; [apply seal_soft, S|].
  sc follow_char; [apply seal_if_breaks; [apply below_refl|apply rcurly_seal; reflexivity]|apply seal_nil].
Qed.
Lemma seal_loop_body b d : seal start_char d follow_char -> seal start_char (loop_body b d) follow_char.
Proof. intros S. unfold loop_body. destruct (is_braced b); [exact S|apply seal_braces, S]. Qed.
Lemma seal_function_body b d : seal start_char d follow_char -> seal start_char (function_body b d) follow_char.
Proof.
  intros S. unfold function_body. destruct (is_braced b); [exact S|].
  destruct (n_newline _); [apply seal_braces, S|apply seal_braces_if_broken, S].
Qed.
Lemma seal_if_body a f b d : seal start_char d follow_char -> seal start_char (if_body a f b d) follow_char.
Proof.
  intros S. unfold if_body. destruct (is_braced b); [exact S|]. destruct (is_if b && a); [exact S|].
  destruct f; [apply seal_braces, S|apply seal_braces_if_broken, S].
Qed.

Definition entry_ok (x : expr * doc) : Prop := seal start_char (snd x) follow_char.
Lemma seal_entry_break double n f g : seal f (entry_break double n) g.
Proof.
  unfold entry_break. destruct double.
  - destruct (2 <? n)%nat; [|destruct (n =? 2)%nat; apply seal_line; discriminate].
    cbn [cat]. sc no_char; [apply seal_line; discriminate|]. sc g; [apply seal_break|apply seal_nil].
  - destruct (1 <? n)%nat; apply seal_line; discriminate.
Qed.
Lemma seal_more_entries double l : Forall entry_ok l ->
  seal follow_char (join_entries double false l) follow_char.
Proof.
  induction 1 as [|[e d] l H F IH]; [apply seal_nil|]. cbn [join_entries cat].
  sc start_char; [apply seal_entry_break|]. sc follow_char; [exact H|].
  sc follow_char; [exact IH|apply seal_nil].
Qed.
Lemma seal_entries double l : Forall entry_ok l -> l <> [] ->
  seal start_char (join_entries double true l) follow_char.
Proof.
  intros F N. destruct F as [|[e d] l H F]; [contradiction|]. cbn [join_entries cat].
  sc start_char; [apply seal_nil|]. sc follow_char; [exact H|].
  sc follow_char; [apply seal_more_entries, F|apply seal_nil].
Qed.
Lemma seal_params_from (first : bool) l : Forall entry_ok l -> l <> [] ->
  seal start_char (join_params first l) follow_char.
Proof.
  intros F. revert first. induction F as [|[e d] l H F IH]; intros first N; [contradiction|].
  cbn [join_params cat].
  sc start_char; [destruct first; [apply seal_nil|apply seal_line; destruct (1 <? _)%nat; discriminate]|].
  sc follow_char; [exact H|]. destruct l as [|x l].
  - sc follow_char; [apply seal_nil|]. sc follow_char; [apply seal_nil|apply seal_nil].
  - sc start_char; [apply (seal_entry close_char); [exact below_close_follow|apply comma_seal]|].
    sc follow_char; [apply IH; discriminate|apply seal_nil].
Qed.
Lemma entries_map f (l : list expr) : (forall x, In x l -> seal start_char (f x) follow_char) ->
  Forall entry_ok (map (fun x => (x, f x)) l).
Proof. intros H. apply Forall_map, Forall_forall. exact H. Qed.

(** Arguments. *)
Definition arg_ok (a : ainfo) : Prop :=
  seal start_char (ai_doc a) close_char /\
  (is_hole (ai_node a) && negb (has_comments (notes_of (ai_node a))) = true ->
   seal start_char (ai_doc a) start_char) /\
  (forall d, ai_function a = Some d -> seal start_char d close_char).
Definition sep_ok (a : ainfo * bool) : Prop := arg_ok (fst a).
Lemma seal_arg a : sep_ok a -> seal start_char (arg_doc a) close_char.
Proof.
  intros [H _]. unfold arg_doc. sc close_char; [exact H|]. destruct (snd a); [apply comma_seal|apply seal_nil].
Qed.
Lemma seal_hole a : sep_ok a -> leading_hole a = true -> seal start_char (arg_doc a) start_char.
Proof.
  intros [_ [H _]] E. unfold arg_doc. sc start_char; [exact (H E)|].
  destruct (snd a); [apply (seal_entry close_char); [exact below_close_start|apply comma_seal]|apply seal_nil].
Qed.
Lemma seal_holes l : Forall sep_ok l -> seal start_char (holes_doc (take_holes l)) start_char.
Proof.
  unfold holes_doc. induction 1 as [|a l H F IH]; [apply seal_nil|]. cbn [take_holes].
  destruct (leading_hole a) eqn:E; [|apply seal_nil]. cbn [map cat].
  sc start_char; [apply seal_hole; assumption|exact IH].
Qed.
Lemma drop_holes_ok l : Forall sep_ok l -> Forall sep_ok (drop_holes l).
Proof.
  induction 1 as [|a l H F IH]; [constructor|]. cbn [drop_holes].
  destruct (leading_hole a); [exact IH|constructor; assumption].
Qed.
Lemma seal_broken_args (first : bool) l : Forall sep_ok l ->
  seal (if first then start_char else close_char) (broken_args first l) close_char.
Proof.
  intros F. revert first. induction F as [|a l H F IH]; intros first.
  - destruct first; [|apply seal_nil]. apply (seal_exit _ _ start_char); [exact below_close_start|apply seal_nil].
  - cbn [broken_args cat]. sc start_char.
    + destruct first; [apply seal_nil|apply seal_line; destruct (arg_lines a <=? 1)%nat; discriminate].
    + sc close_char; [apply seal_arg, H|]. sc close_char; [apply (IH false)|apply seal_nil].
Qed.
Lemma seal_broken_out k rc l expand : Forall sep_ok l ->
  seal follow_char (all_broken_out (token_doc (l_token k)) (token_doc (r_token k)) rc
    (take_holes l) (drop_holes l) expand) follow_char.
Proof.
  intros F. unfold all_broken_out. apply seal_group. cbn [cat].
  sc start_char; [apply l_seal|]. sc start_char; [apply seal_holes, F|].
  sc start_char; [apply seal_maybe_space|].
  pose proof (seal_broken_args true _ (drop_holes_ok _ F)) as B. cbv iota in B.
  sc close_char; [destruct (negb expand && _); [exact B|apply seal_soft, B]|].
  sc follow_char; [apply r_seal|apply seal_nil].
Qed.
Lemma seal_grouped_last only a : sep_ok a -> seal start_char (grouped_last only a) close_char.
Proof.
  intros H. unfold grouped_last. pose proof H as [_ [_ Hf]]. destruct (ai_function (fst a)) as [d|]; [|apply seal_arg, H].
  destruct only; [apply seal_arg, H|]. sc close_char; [exact (Hf d eq_refl)|].
  destruct (snd a); [apply comma_seal|apply seal_nil].
Qed.
Lemma seal_join_grouped only w l : (forall d, seal start_char d close_char -> seal start_char (w d) close_char) ->
  Forall sep_ok l -> forall first : bool,
  seal (if first then start_char else close_char) (join_grouped only first w l) close_char.
Proof.
  intros W F. induction F as [|a l H F IH]; intros first.
  - destruct first; [|apply seal_nil]. apply (seal_exit _ _ start_char); [exact below_close_start|apply seal_nil].
  - cbn [join_grouped cat]. sc start_char.
    + destruct first; [apply seal_nil|apply seal_line; discriminate].
    + sc close_char; [destruct l; [apply W, seal_grouped_last, H|apply seal_arg, H]|].
      sc close_char; [apply (IH false)|apply seal_nil].
Qed.
Lemma seal_write_grouped k rc l : Forall sep_ok l ->
  seal follow_char (write_grouped (token_doc (l_token k)) (token_doc (r_token k)) rc
    (take_holes l) (drop_holes l)) follow_char.
Proof.
  intros F. unfold write_grouped. pose proof (fun e => seal_broken_out k rc l e F) as B.
  destruct (last_opt _); [|apply B]. cbv zeta. destruct (existsb _ _); [apply B|].
  match goal with |- seal _ (if ?b then all_broken_out _ _ _ _ _ _ else _) _ => destruct b end; [apply B|].
  assert (V : forall w, (forall d, seal start_char d close_char -> seal start_char (w d) close_char) ->
    seal follow_char (cat [ token_doc (l_token k); holes_doc (take_holes l);
      maybe_space (FmtModel.nonempty (take_holes l) && FmtModel.nonempty (drop_holes l));
      join_grouped (List.length (drop_holes l) =? 1)%nat true w (drop_holes l); token_doc (r_token k) ])
      follow_char).
  { intros w W. cbn [cat]. sc start_char; [apply l_seal|]. sc start_char; [apply seal_holes, F|].
    sc start_char; [apply seal_maybe_space|].
    sc close_char; [exact (seal_join_grouped _ w _ W (drop_holes_ok _ F) true)|].
    sc follow_char; [apply r_seal|apply seal_nil]. }
  assert (V1 := V (group true) (fun d => seal_group _ true d _)).
  destruct (will_break _).
  - sc follow_char; [apply seal_expand|]. apply seal_best; [exact V1|apply B].
  - apply seal_best; [apply V; intros d S; exact S|]. apply seal_best; [exact V1|apply B].
Qed.
Lemma with_seps_ok l : Forall arg_ok l -> Forall sep_ok (with_seps l).
Proof.
  intros F. apply Forall_forall. intros a I. apply in_with_seps in I.
  rewrite Forall_forall in F. exact (F _ I).
Qed.
Lemma seal_call_like o n k rc infos : Forall arg_ok infos ->
  seal follow_char (rule_call_like o n k rc infos) follow_char.
Proof.
  intros F. unfold rule_call_like. pose proof (with_seps_ok _ F) as Fs.
  destruct infos as [|i0 infos0] eqn:E.
  - cbn [cat]. sc start_char; [apply l_seal|].
    sc close_char; [apply (seal_exit _ _ start_char); [exact below_close_start|apply seal_dangling_soft]|].
    sc follow_char; [apply r_seal|apply seal_nil].
  - rewrite <- E in *. clear E i0 infos0.
    destruct (match k with KCall => _ | _ => _ end).
    + cbn [cat]. sc start_char; [apply l_seal|]. sc close_char; [|sc follow_char; [apply r_seal|apply seal_nil]].
      revert Fs. generalize (with_seps infos). intros l Fs.
      enough (X : forall first : bool, seal (if first then start_char else close_char)
        ((fix join first (l : list (ainfo * bool)) :=
               match l with
               | [] => DNil
               | a :: r => cat [ (if first : bool then DNil else DSpace); arg_doc a; join false r ]
               end) first l) close_char) by exact (X true).
      induction Fs as [|a r H Fs IH]; intros first.
      * destruct first; [|apply seal_nil]. apply (seal_exit _ _ start_char); [exact below_close_start|apply seal_nil].
      * cbn [cat]. sc start_char; [destruct first; [apply seal_nil|apply seal_space]|].
        sc close_char; [apply seal_arg, H|]. sc close_char; [exact (IH false)|apply seal_nil].
    + cbv zeta.
      match goal with |- seal _ (if ?b then _ else _) _ => destruct b end; [apply seal_broken_out, Fs|].
      match goal with |- seal _ (if ?b then _ else _) _ => destruct b end; [apply seal_broken_out, Fs|].
      match goal with |- seal _ (if ?b then _ else _) _ => destruct b end;
        [apply seal_write_grouped, Fs|apply seal_broken_out, Fs].
Qed.

(** Tables. *)
Section Tables.
Variable pc : doc -> option (list piece).
Hypothesis Cp : cell_printer pc.
Definition field_ok (a : ainfo) : Prop :=
  arg_named (ai_node a) = false ->
  seal start_char (ai_fields a) close_char /\
  forall m os, glay m (ai_fields a) os -> os = [] \/ firstw os.
Lemma seal_write_cell cs j c : arg_ok (ce_arg _ c) -> field_ok (ce_arg _ c) ->
  arg_named (ai_node (ce_arg _ c)) = false ->
  (forall ps, ce_kind _ c = Other ps -> cell_text pc (ce_arg _ c) = Some ps) ->
  seal start_char (write_cell ainfo own_lead own_trail ai_doc (token_doc tCOMMA) cs j c) start_char.
Proof.
  intros A F N K. destruct (F N) as [F1 F2]. unfold write_cell. destruct (cell_padding _ _) as [lp rp]. cbn [cat].
  sc start_char; [apply seal_spaces|]. sc no_char.
  - destruct (ce_kind _ c) as [iw fw|ps].
    + apply (seal_exit _ _ close_char); [apply below_no|exact (proj1 A)].
    + destruct (cell_text_prints pc _ _ Cp (K ps eq_refl)) as [os [G ->]].
      sc start_char; [apply seal_leading|].
      sc no_char; [exact (seal_cell _ _ os _ (F1 _ _ G) (F2 _ _ G) eq_refl)|].
      sc no_char; [apply seal_trailing|apply seal_nil].
  - sc no_char; [destruct (ce_sep _ c); [apply seal_spaces|apply seal_nil]|].
    sc no_char; [|sc start_char; [apply seal_space|apply seal_nil]].
    destruct (ce_sep _ c); [|apply seal_nil]. sc close_char; [apply seal_space|].
    sc no_char; [apply comma_seal|apply seal_nil].
Qed.
Definition cell_ok (c : cell ainfo) : Prop :=
  arg_ok (ce_arg _ c) /\ field_ok (ce_arg _ c) /\ arg_named (ai_node (ce_arg _ c)) = false /\
  forall ps, ce_kind _ c = Other ps -> cell_text pc (ce_arg _ c) = Some ps.
Lemma seal_write_cells cs row : Forall cell_ok row -> forall j,
  seal start_char (write_cells ainfo own_lead own_trail ai_doc (token_doc tCOMMA) cs j row) start_char.
Proof.
  induction 1 as [|c row [A [F [N K]]] Fr IH]; intros j; [apply seal_nil|]. cbn [write_cells].
  sc start_char; [apply seal_write_cell; assumption|apply IH].
Qed.
Lemma seal_write_rows cs rs : Forall (Forall cell_ok) rs -> forall first,
  seal start_char (write_rows ainfo ai_node own_lead own_trail ai_doc (token_doc tCOMMA) cs first rs) start_char.
Proof.
  induction 1 as [|row rs H F IH]; intros first; [apply seal_nil|]. cbn [write_rows cat].
  sc start_char; [destruct first; [apply seal_nil|]; destruct row; [apply seal_nil|apply seal_any_line]|].
  sc start_char; [apply seal_write_cells, H|]. sc start_char; [apply IH|apply seal_nil].
Qed.
Lemma seal_write_remaining l : Forall sep_ok l ->
  seal start_char (write_remaining ainfo ai_node ai_doc (token_doc tCOMMA) l) close_char.
Proof.
  intros F. unfold write_remaining. destruct l as [|a l].
  - apply (seal_exit _ _ start_char); [exact below_close_start|apply seal_nil].
  - sc close_char; [apply seal_line; discriminate|].
    induction F as [|[b sep] r H F IH]; [apply seal_nil|]. cbn [map cat].
    sc close_char; [|exact IH]. sc start_char; [apply seal_line; destruct (_ <=? 1)%nat; discriminate|].
    sc close_char; [exact (proj1 H)|]. sc close_char; [destruct sep; [apply comma_seal|apply seal_nil]|apply seal_nil].
Qed.
Lemma seal_table t infos k :
  build_table ainfo ai_node (cell_text pc) (with_seps infos) = Some t ->
  Forall arg_ok infos -> Forall field_ok infos ->
  seal follow_char (write_table ainfo ai_node own_lead own_trail ai_doc (token_doc tCOMMA)
    (token_doc (l_token k)) (token_doc (r_token k)) t) follow_char.
Proof.
  intros B F Ff. unfold build_table in B. apply build_loop_spec in B; [|intros c []]. destruct B as [E C].
  cbn [List.concat app map] in E.
  assert (X : Forall (Forall cell_ok) (rows _ t) /\ Forall sep_ok (remaining _ t)).
  { assert (In1 : forall a, In a (with_seps infos) -> arg_ok (fst a) /\ field_ok (fst a)).
    { intros a I. apply in_with_seps in I. rewrite Forall_forall in F, Ff. auto. }
    rewrite <- E in In1. split.
    - apply Forall_forall. intros row Ir. apply Forall_forall. intros c Ic.
      assert (Icc : In c (List.concat (rows _ t))) by (apply in_concat; eauto).
      destruct (C c Icc) as [C1 C2]. destruct (In1 (cell_arg c)) as [A1 A2].
      { apply in_or_app. left. apply in_map, Icc. }
      split; [exact A1|]. split; [exact A2|]. split; assumption.
    - apply Forall_forall. intros a I. apply In1. apply in_or_app. right. exact I. }
  destruct X as [X1 X2]. unfold write_table. apply seal_group. cbn [cat].
  sc start_char; [apply l_seal|]. sc close_char; [|sc follow_char; [apply r_seal|apply seal_nil]].
  apply seal_soft. sc start_char; [apply seal_write_rows, X1|apply seal_write_remaining, X2].
Qed.
End Tables.

(** * The formatter *)

Section Formatter.
Variable o : format_options.
Variable pc : doc -> option (list piece).
Hypothesis Cp : cell_printer pc.
Notation lx := (everywhere lexical_node).

Lemma seal_node anc e fields dang : shaped e -> lx e ->
  seal (before (sort_of e)) fields (after (sort_of e)) ->
  seal (after (sort_of e)) dang (after (sort_of e)) ->
  seal (before (sort_of e)) (node_rule o anc e fields dang) (after (sort_of e)).
Proof.
  intros Sh Ev F D. unfold node_rule. destruct (suppressed o anc e); [apply seal_verbatim; assumption|].
  cbn [cat]. sc (before (sort_of e)); [apply seal_leading|]. sc (after (sort_of e)); [exact F|].
  sc (after (sort_of e)); [exact D|]. sc (after (sort_of e)); [apply seal_trailing|apply seal_nil].
Qed.
Lemma seal_node_soft anc e fields : shaped e -> lx e ->
  seal (before (sort_of e)) fields (after (sort_of e)) ->
  seal (before (sort_of e)) (node_rule_soft o anc e fields) (after (sort_of e)).
Proof. intros Sh Ev F. apply seal_node; try assumption. apply seal_dangling_soft. Qed.

Definition seals (e : expr) : Prop :=
  forall anc fo, seal (before (sort_of e)) (fmt o pc anc fo e) (after (sort_of e)).
Lemma seal_chain_piece p : single any_char no_char (tp_op p) -> seal start_char (tp_doc p) follow_char ->
  seal follow_char (chain_piece p) follow_char.
Proof.
  intros O D. unfold chain_piece. cbn [cat]. sc follow_char.
  - destruct (tp_enclosing p); [|apply seal_nil]. destruct (_ ++ _); [apply seal_nil|apply seal_panic].
  - sc any_char; [apply seal_space|]. sc no_char; [apply seal_single, O|].
    sc start_char; [apply seal_line; destruct (1 <? _)%nat; discriminate|].
    sc follow_char; [exact D|]. sc follow_char; [|apply seal_nil].
    destruct (tp_enclosing p); [apply seal_trailing|apply seal_nil].
Qed.
Lemma seal_spine N : (forall x, (esize x < N)%nat -> shaped x -> lx x -> seals x) ->
  forall l, (esize l < N)%nat -> sort_of l = SoExpr -> shaped l -> lx l ->
  forall anc dl tail, spine o pc anc l = (dl, tail) ->
  seal start_char dl follow_char /\
  Forall (fun p => seal follow_char (chain_piece p) follow_char) tail.
Proof.
  intros IH.
  assert (Stop : forall l anc dl tail, (esize l < N)%nat -> sort_of l = SoExpr -> shaped l -> lx l ->
    (fmt o pc anc fo0 l, []) = (dl, tail) ->
    seal start_char dl follow_char /\ Forall (fun p => seal follow_char (chain_piece p) follow_char) tail).
  { intros l anc dl tail Sz So Sh Ev E. injection E as <- <-. split; [|constructor].
    pose proof (IH l Sz Sh Ev anc fo0) as H. rewrite So in H. exact H. }
  induction l as [| | n l op r IHl IHr| | | | | | | | | | | | | | | | |] using expr_ind';
    intros Sz So Sh Ev anc dl tail Sp; try exact (Stop _ _ _ _ Sz So Sh Ev Sp).
  cbn [spine] in Sp. destruct (is_chain_op op) eqn:EC; [|exact (Stop _ _ _ _ Sz So Sh Ev Sp)].
  destruct (spine o pc (FBinary op :: anc) l) as [dl' tail'] eqn:ES. injection Sp as <- <-.
  cbn [esize] in Sz. destruct Ev as [[Tk _] [El Er]]. destruct Sh as [[Sl Shl] [Sr Shr]].
  destruct (IHl ltac:(lia) Sl Shl El (FBinary op :: anc) dl' tail' ES) as [V1 V2].
  split; [exact V1|]. apply Forall_app. split; [exact V2|]. constructor; [|constructor].
  apply seal_chain_piece; cbn [tp_op tp_doc]; [apply binary_single, Tk|].
  pose proof (IH r ltac:(lia) Shr Er (FBinary op :: anc) fo0) as H. rewrite Sr in H. exact H.
Qed.
Lemma seal_pieces l : Forall (fun p => seal follow_char (chain_piece p) follow_char) l ->
  seal follow_char (cat (map chain_piece l)) follow_char.
Proof. induction 1 as [|p l H F IH]; [apply seal_nil|]. sc follow_char; [exact H|exact IH]. Qed.
Lemma restyle_single anc op : single any_char no_char op -> single any_char no_char (restyle o anc op).
Proof.
  intros S. unfold restyle. destruct (kind_eqb (t_kind op) EQUAL);
    [destruct (o_assignment_style o)|destruct (kind_eqb (t_kind op) ASSIGN);
      [destruct (o_assignment_style o); [|destruct (can_normalize_to_equal anc)|]|]];
    try exact S; op_single.
Qed.
Lemma sticky_single op : operator binary_kinds op \/ special_operator op -> classify (t_kind op) = Sticky ->
  single follow_char start_char op.
Proof.
  intros [O|[K _]] C; [|rewrite K in C; discriminate].
  assert (X : operator [WAT; EXPONENTIATE; EXPONENTIATE2; SyntaxKind.COLON] op).
  { destruct O as [_ T]. split; [|exact T]. destruct (t_kind op); try discriminate; cbn; tauto. }
  apply (operator_single _ _ _ _ X). reflexivity.
Qed.

Lemma fmt_seal : forall N e, (esize e < N)%nat -> shaped e -> lx e -> seals e.
Proof.
  induction N as [|N IH]; intros e Sz Sh Ev anc fo; [lia|].
  assert (Ch : forall x, (esize x < esize e)%nat -> sort_of x = SoExpr /\ shaped x -> lx x ->
    forall anc fo, seal start_char (fmt o pc anc fo x) follow_char).
  { intros x Sx [So Shx] Ex anc' fo'. pose proof (IH x ltac:(lia) Shx Ex anc' fo') as H.
    rewrite So in H. exact H. }
  assert (Cs : forall s x, (esize x < esize e)%nat -> sort_of x = s /\ shaped x -> lx x ->
    forall anc fo, seal (before s) (fmt o pc anc fo x) (after s)).
  { intros s x Sx [So Shx] Ex anc' fo'. pose proof (IH x ltac:(lia) Shx Ex anc' fo') as H.
    rewrite So in H. exact H. }
  pose proof (everywhere_self _ _ Ev) as [Tk _].
  destruct e as [n k ts|n op a|n l op r|n l op r|n l op r|n name ps b|n items|n a d|n v|n c t el
    |n nl a|n v s b|n c b|n b|n es|n b|n f args|n k rc items|n nm v sl|n nm];
    try change (fmt o pc anc fo (EArgs n k rc items)) with
      (node_rule o anc (EArgs n k rc items)
        (rule_args o pc (EArgs n k rc items) n k rc
           (match fo_table fo with Some t => t | None => false end)
           (map (arg_info o pc anc) items)) DNil);
    cbn [fmt];
    try (apply seal_node_soft; [exact Sh|exact Ev|]);
    try (apply seal_node; [exact Sh|exact Ev| |apply seal_nil]);
    cbn [shaped] in Sh; cbn [esize] in Ch, Cs, Sz; destruct Ev as [Own Ev];
    cbn [tokens_lexical] in Tk; cbn [sort_of before after].
  - apply (seal_entry atom_char); [exact below_atom|apply leaf_good, Tk].
  - pose proof (Ch a ltac:(lia) Sh Ev) as H. unfold rule_unary. cbn [cat].
    sc start_char; [apply seal_single, unary_single, Tk|]. sc start_char; [apply seal_maybe_space|].
    sc follow_char; [destruct (_ && _); [apply seal_soft|]; apply H|apply seal_nil].
  - destruct Sh as [Sl Sr], Ev as [El Er].
    pose proof (Ch l ltac:(lia) Sl El) as L. pose proof (Ch r ltac:(lia) Sr Er) as R.
    pose proof (binary_single op Tk) as Op.
    destruct (classify (t_kind op)) eqn:EC.
    + apply seal_group. cbn [cat]. sc follow_char; [apply L|].
      sc start_char; [apply seal_single, sticky_single; assumption|]. sc follow_char; [apply R|apply seal_nil].
    + apply seal_group. cbn [cat]. sc follow_char; [apply L|]. sc any_char; [apply seal_space|].
      sc no_char; [apply seal_single, restyle_single, Op|]. sc follow_char; [|apply seal_nil].
      destruct (persistent_assignment o op r);
        [apply seal_indent; sc start_char; [apply seal_line; discriminate|apply R]|].
      sc start_char; [apply seal_space|apply R].
    + change (seal start_char
        (let '(dl, tail) := spine o pc (FBinary op :: anc) l in
         rule_chain o (fo_left fo) dl
           (tail ++ [ {| tp_op := op; tp_right := r;
              tp_doc := fmt o pc (FBinary op :: anc) fo0 r; tp_enclosing := None |} ])) follow_char).
      destruct (spine o pc (FBinary op :: anc) l) as [dl tail] eqn:ES.
      destruct (seal_spine N IH l ltac:(lia) (proj1 Sl) (proj2 Sl) El _ _ _ ES) as [V1 V2].
      assert (Z : seal follow_char (cat (map chain_piece (tail ++ [ {| tp_op := op; tp_right := r;
              tp_doc := fmt o pc (FBinary op :: anc) fo0 r; tp_enclosing := None |} ]))) follow_char).
      { apply seal_pieces, Forall_app. split; [exact V2|]. constructor; [|constructor].
        apply seal_chain_piece; [exact Op|apply R]. }
      apply seal_group. sc follow_char; [exact V1|]. destruct (fo_left fo); [exact Z|apply seal_indent, Z].
    + apply seal_group. cbn [cat]. sc follow_char; [apply L|]. sc any_char; [apply seal_space|].
      sc no_char; [apply seal_single, Op|]. sc follow_char; [|apply seal_nil].
      apply seal_indent. sc start_char; [apply seal_line; discriminate|apply R].
    + apply seal_panic.
  - destruct Sh as [Sl Sr], Ev as [El Er]. apply seal_group. cbn [cat].
    sc follow_char; [apply Ch; [lia|exact Sl|exact El]|].
    sc start_char; [apply seal_single, (operator_single _ _ _ _ Tk); reflexivity|].
    sc follow_char; [apply Ch; [lia|exact Sr|exact Er]|apply seal_nil].
  - destruct Sh as [Sl Sr], Ev as [El Er]. apply seal_group. cbn [cat].
    sc follow_char; [apply Ch; [lia|exact Sl|exact El]|].
    sc start_char; [apply seal_single, (operator_single _ _ _ _ Tk); reflexivity|].
    sc follow_char; [apply Ch; [lia|exact Sr|exact Er]|apply seal_nil].
  - destruct Sh as [Sp Sb], Ev as [Ep Eb]. apply seal_group. cbn [cat].
    sc (N.eqb 40).
    + destruct Tk as [[K|[K|[]]] T]; rewrite <- K in T; injection T as T;
        rewrite (token_eta name), <- K, <- T; apply seal_single; [|op_single].
      apply keyword_single; [apply below_eqb; reflexivity|reflexivity].
    + pose proof (Cs SoParams ps ltac:(lia) Sp Ep (FFunction false :: anc) fo0) as P.
      sc follow_char; [destruct (fo_grouped fo); [apply seal_remove_soft|]; exact P|].
      sc start_char; [apply seal_space|]. sc follow_char; [|apply seal_nil].
      apply seal_function_body, Ch; [lia|exact Sb|exact Eb].
  - assert (It : Forall entry_ok (map (fun x => (x, fmt o pc (FParamList :: anc) fo0 x)) items)).
    { apply (entries_map (fun x => fmt o pc (FParamList :: anc) fo0 x)). intros x I.
      pose proof (esize_In x items I).
      exact (Cs SoParam x ltac:(lia) (all_of_In _ _ _ Sh I) (all_of_In _ _ _ Ev I) _ _). }
    unfold rule_params. destruct items as [|x items].
    + cbn [map cat]. sc close_char; [apply lparen_seal; reflexivity|]. sc close_char; [apply seal_dangling_soft|].
      sc follow_char; [apply rparen_seal; reflexivity|apply seal_nil].
    + cbn [map] in *. apply seal_group. cbn [cat]. sc start_char; [apply lparen_seal; reflexivity|].
      sc follow_char; [apply seal_soft, seal_params_from; [exact It|discriminate]|].
      sc follow_char; [apply rparen_seal; reflexivity|apply seal_nil].
  - destruct Sh as [Sa Sd], Ev as [Ea Ed]. pose proof (Ch a ltac:(lia) Sa Ea (FParam :: anc) fo0) as A.
    unfold rule_param. destruct d as [d|]; [|exact A]. cbn [cat]. sc follow_char; [exact A|].
    sc (N.eqb 61); [apply seal_space|]. sc follow_char; [|apply seal_nil].
    exact (Cs SoDefault d ltac:(lia) Sd Ed _ _).
  - unfold rule_default. cbn [cat]. sc no_char; [op_seal|]. sc start_char; [apply seal_space|].
    sc follow_char; [apply Ch; [lia|exact Sh|exact Ev]|apply seal_nil].
  - destruct Sh as [Sc [St Se]], Ev as [Ec [Et Ee]]. apply seal_group. cbn [cat].
    sc no_char; [kw_seal|]. sc any_char; [apply seal_space|]. sc start_char; [apply lparen_seal; reflexivity|].
    sc follow_char; [apply seal_group, seal_soft, Ch; [lia|exact Sc|exact Ec]|].
    sc no_char; [apply rparen_seal; reflexivity|]. sc start_char; [apply seal_space|].
    sc follow_char; [apply seal_if_body, Ch; [lia|exact St|exact Et]|]. sc follow_char; [|apply seal_nil].
    destruct el as [x|]; [|apply seal_nil]. sc (N.eqb 101); [apply seal_space|].
    exact (Cs SoElse x ltac:(lia) Se Ee _ _).
  - unfold rule_else. cbn [cat]. sc no_char; [kw_seal|]. sc start_char; [apply seal_space|].
    sc follow_char; [apply seal_if_body, Ch; [lia|exact Sh|exact Ev]|apply seal_nil].
  - destruct Sh as [Sv [Ss Sb]], Ev as [E1 [E2 E3]]. apply seal_group. cbn [cat].
    sc no_char; [kw_seal|]. sc any_char; [apply seal_space|]. sc start_char; [apply lparen_seal; reflexivity|].
    sc follow_char; [apply Ch; [lia|exact Sv|exact E1]|]. sc any_char; [apply seal_space|].
    sc no_char; [kw_seal|]. sc start_char; [apply seal_space|].
    sc follow_char; [apply Ch; [lia|exact Ss|exact E2]|]. sc no_char; [apply rparen_seal; reflexivity|].
    sc start_char; [apply seal_space|]. sc follow_char; [|apply seal_nil].
    apply seal_loop_body, Ch; [lia|exact Sb|exact E3].
  - destruct Sh as [Sc Sb], Ev as [E1 E2]. apply seal_group. cbn [cat].
    sc no_char; [kw_seal|]. sc any_char; [apply seal_space|]. sc start_char; [apply lparen_seal; reflexivity|].
    sc follow_char; [apply seal_group, seal_soft, Ch; [lia|exact Sc|exact E1]|].
    sc no_char; [apply rparen_seal; reflexivity|]. sc start_char; [apply seal_space|].
    sc follow_char; [|apply seal_nil]. apply seal_loop_body, Ch; [lia|exact Sb|exact E2].
  - apply seal_group. cbn [cat]. sc no_char; [kw_seal|]. sc start_char; [apply seal_space|].
    sc follow_char; [|apply seal_nil]. apply seal_loop_body, Ch; [lia|exact Sh|exact Ev].
  - assert (It : forall l, incl l es -> Forall entry_ok
      ((fix go (l : list expr) : list (expr * doc) :=
         match l with
         | [] => []
         | x :: r => (x, fmt o pc (FBracedList (is_last r) :: anc) fo0 x) :: go r
         end) l)).
    { induction l as [|x l IHl]; intros Il; [constructor|]. constructor.
      - assert (I : In x es) by (apply Il; left; reflexivity). pose proof (esize_In x es I).
        apply Ch; [lia|exact (all_of_In _ _ _ Sh I)|exact (all_of_In _ _ _ Ev I)].
      - apply IHl. intros y I. apply Il. right. exact I. }
    specialize (It es (incl_refl es)). unfold rule_braced.
    destruct (variant_of anc n es) eqn:V.
    + cbn [cat]. sc close_char; [apply lcurly_seal; reflexivity|].
      sc follow_char; [apply rcurly_seal; reflexivity|apply seal_nil].
    + cbn [cat]. sc close_char; [apply lcurly_seal; reflexivity|]. sc close_char; [apply seal_dangling_block|].
      sc follow_char; [apply rcurly_seal; reflexivity|apply seal_nil].
    + destruct (n_dang inner); [|apply seal_panic]. apply seal_group. cbn [cat].
      sc start_char; [apply seal_leading|]. sc start_char; [apply lcurly_seal; reflexivity|].
      sc start_char; [apply lcurly_seal; reflexivity|]. sc follow_char.
      * apply seal_soft_space. unfold variant_of in V.
        destruct es as [|e1 [|e2 es]]; try (destruct (n_dang n); discriminate);
          [|destruct e1 as [| | | | | | | | | | | | | |n1 l1| | | | |]; try discriminate;
            destruct l1 as [|[] [|]]; discriminate].
        destruct e1 as [| | | | | | | | | | | | | |n1 l1| | | | |]; try discriminate.
        destruct l1 as [|x [|]]; try discriminate; [|destruct x; discriminate].
        destruct Sh as [[_ [Sx _]] _], Ev as [[_ [Ex _]] _].
        apply Ch; [cbn; lia|exact Sx|exact Ex].
      * sc follow_char; [apply rcurly_seal; reflexivity|]. sc follow_char; [apply rcurly_seal; reflexivity|].
        sc follow_char; [apply seal_trailing|apply seal_nil].
    + apply seal_braces. apply seal_entries; [exact It|].
      intros Z. assert (Ze : es = []) by (destruct es; [reflexivity|discriminate]). subst es.
      cbn [variant_of] in V. destruct (n_dang n); discriminate.
  - unfold rule_paren. cbn [cat]. sc start_char; [apply lparen_seal; reflexivity|].
    pose proof (Ch b ltac:(lia) Sh Ev (FParen :: anc) fo0) as B.
    sc follow_char; [destruct (n_direct _); [apply seal_block|]; exact B|].
    sc follow_char; [apply rparen_seal; reflexivity|apply seal_nil].
  - destruct Sh as [Sf Sa], Ev as [Ef Ea]. sc follow_char; [apply Ch; [lia|exact Sf|exact Ef]|].
    exact (Cs SoArgs args ltac:(lia) Sa Ea _ _).
  - assert (A : forall x, In x items -> arg_ok (arg_info o pc anc x) /\ field_ok (arg_info o pc anc x)).
    { intros x I. pose proof (esize_In x items I) as Sx. pose proof (all_of_In _ _ _ Sh I) as [So Shx].
      pose proof (all_of_In _ _ _ Ev I) as Ex.
      pose proof (Cs SoArg x ltac:(lia) (conj So Shx) Ex) as D.
      destruct x as [| | | | | | | | | | | | | | | | | |n' nm v sl|]; try discriminate.
      cbn [shaped] in Shx. destruct Shx as [Sn Sv]. destruct Ex as [_ [En Evv]].
      assert (Dv : forall y, v = Some y -> forall anc fo, seal start_char (fmt o pc anc fo y) close_char).
      { intros y -> anc' fo'. apply (seal_exit _ _ follow_char); [exact below_close_follow|].
        apply Ch; [cbn [esize] in Sx; lia|exact Sv|exact Evv]. }
      assert (Dn : forall y, nm = Some y -> forall anc fo, seal start_char (fmt o pc anc fo y) close_char).
      { intros y -> anc' fo'. exact (Cs SoName y ltac:(cbn [esize] in Sx; lia) Sn En anc' fo'). }
      split; [split; [exact (D _ _)|split]|].
      - cbn [arg_info ai_node ai_doc]. intros H. apply andb_true_iff in H. destruct H as [H1 H2].
        destruct nm, v; try discriminate. cbn [fmt]. unfold node_rule_soft, node_rule, suppressed, has_directive.
        cbn [notes_of] in *. unfold has_comments in H2.
        destruct (n_lead n') as [|c cs]; [|discriminate]. destruct (n_dang n') as [|c cs]; [|discriminate].
        destruct (n_trail n') as [|c cs]; [|discriminate].
        cbn [existsb]. rewrite andb_false_r. cbn [orb argument_fields].
        intros m os H. cbn in H.
        assert (Z : os = []).
        { repeat match goal with H : exists _, _ |- _ => destruct H | H : _ /\ _ |- _ => destruct H end.
          subst. reflexivity. }
        subst os. apply seal_ops_nil, below_refl.
      - cbn [arg_info ai_function]. intros d E. destruct v as [y|]; [|discriminate].
        destruct y; try discriminate. injection E as <-. cbn [cat].
        sc start_char.
        + destruct nm as [z|]; [|apply seal_nil]. sc close_char; [apply Dn; reflexivity|apply seal_space].
        + sc close_char; [exact (Dv _ eq_refl (FArg :: FArgList :: anc) fo_with_grouped)|apply seal_nil].
      - intros Nm. cbn [arg_info ai_node arg_named] in Nm. destruct nm; [discriminate|].
        cbn [arg_info ai_fields]. destruct v as [y|]; cbn [argument_fields].
        + split; [apply Dv; reflexivity|]. intros m os H. right.
          exact (proj1 (expr_edges o pc y _ _ m os (proj1 Sv) (proj2 Sv) H)).
        + split; [apply (seal_exit _ _ start_char); [exact below_close_start|apply seal_nil]|].
          intros m os H. left. exact H. }
    assert (F : Forall arg_ok (map (arg_info o pc anc) items))
      by (apply Forall_map, Forall_forall; intros x I; apply A, I).
    assert (Ff : Forall field_ok (map (arg_info o pc anc) items))
      by (apply Forall_map, Forall_forall; intros x I; apply A, I).
    unfold rule_args. destruct k; try (apply seal_call_like, F).
    destruct (fo_table fo) as [[]|]; try (apply seal_call_like, F).
    destruct (map (arg_info o pc anc) items) as [|i0 infos0] eqn:E; [apply seal_call_like, F|].
    rewrite <- E in *. destruct (build_table _ _ _ _) as [t|] eqn:B.
    + exact (seal_table pc Cp t _ KCall B F Ff).
    + exact (seal_verbatim (EArgs n KCall rc items) Sh (conj Own Ev)).
  - destruct Sh as [Sn Sv], Ev as [En Evv].
    assert (Dv : forall y, v = Some y -> seal start_char (fmt o pc (FArg :: anc) fo0 y) close_char).
    { intros y ->. apply (seal_exit _ _ follow_char); [exact below_close_follow|].
      apply Ch; [lia|exact Sv|exact Evv]. }
    assert (Dn : forall y, nm = Some y -> seal start_char (fmt o pc (FArg :: anc) fo0 y) close_char).
    { intros y ->. exact (Cs SoName y ltac:(lia) Sn En _ _). }
    destruct nm as [x|], v as [y|]; cbn [argument_fields cat].
    + sc close_char; [apply Dn; reflexivity|]. sc start_char; [apply seal_space|].
      sc close_char; [apply Dv; reflexivity|apply seal_nil].
    + sc close_char; [apply Dn; reflexivity|]. sc close_char; [apply seal_space|apply seal_nil].
    + apply Dv; reflexivity.
    + apply (seal_exit _ _ start_char); [exact below_close_start|apply seal_nil].
  - unfold rule_name_clause. cbn [cat]. sc follow_char; [apply Ch; [lia|exact Sh|exact Ev]|].
    sc any_char; [apply seal_space|]. sc close_char; [op_seal|apply seal_nil].
Qed.

(** * The file *)

Lemma bom_seal t f g : t_kind t = UNICODE_BOM /\ t_text t = [65279] -> seal f (token_doc t) g.
Proof.
  intros [K T] m os H. cbn [token_doc glay] in H. subst os. intros p L M.
  assert (N : norm_token t = t) by (apply norm_other; rewrite K; discriminate). rewrite N.
  assert (X : forall r, lexemes (t :: r) = lexemes r).
  { intros r. rewrite (token_eta t), K. reflexivity. }
  exists (held p), Between. cbn [feeds feed_op feed_step feed_word printed_word]. rewrite T.
  rewrite (see_blanks [65279] p (lets_no f p L) eq_refl ltac:(discriminate)).
  assert (J : joined (held p) t = held p) by (unfold joined; rewrite K; reflexivity).
  rewrite J. cbn [held]. rewrite !app_nil_r, (proj2 (texts_eqb_eq (held p) (held p)) eq_refl).
  rewrite (held_code p M (lets_no f p L)). split; [rewrite app_nil_r; reflexivity|]. split; [exact I|].
  unfold lexed. cbn [flat_map op_lexed app]. rewrite X. cbn [lexemes held].
  split; [rewrite ?app_nil_r; reflexivity|].
  intros r. cbn [app]. rewrite !X. reflexivity.
Qed.
Lemma root_seal r : root_shaped r -> lexical r -> seal any_char (root_doc o pc r) any_char.
Proof.
  intros Sr [B [_ Ex]]. unfold root_doc. cbn [cat].
  sc any_char; [apply seal_leading|].
  sc any_char; [destruct (r_bom r); [apply bom_seal, B|apply seal_nil]|].
  sc no_char; [|sc any_char; [apply seal_line; discriminate|sc any_char;
    [apply seal_dangling_soft|sc any_char; [apply seal_trailing|apply seal_nil]]]].
  assert (F : Forall entry_ok (map (fun e => (e, fmt o pc [FRootList] fo0 e)) (r_exprs r))).
  { apply (entries_map (fun e => fmt o pc [FRootList] fo0 e)). intros x I.
    pose proof (all_of_In _ _ _ Sr I) as [So Shx].
    pose proof (fmt_seal (Datatypes.S (esize x)) x ltac:(lia) Shx (all_of_In _ _ _ Ex I) [FRootList] fo0) as H.
    rewrite So in H. exact H. }
  unfold rule_expression_list. destruct (r_exprs r) as [|x l].
  - apply (seal_exit _ _ any_char); [apply below_no|apply seal_nil].
  - apply (seal_conseq start_char _ follow_char); [apply below_any|apply below_no|].
    apply seal_entries; [exact F|discriminate].
Qed.
End Formatter.

(** * The text *)

Definition comment_ok (c : text) : Prop := is_comment c = true /\ ~ In LF c.
Lemma wrap_ok n inner : comments_lexical n -> Forall comment_ok inner -> Forall comment_ok (wrap_comments n inner).
Proof.
  intros C F. unfold comments_lexical in C. apply Forall_app in C. destruct C as [C1 C]. apply Forall_app in C.
  destruct C as [C2 C3]. unfold wrap_comments. rewrite !Forall_app, !Forall_map. auto.
Qed.
Lemma ecomments_ok e : everywhere lexical_node e -> Forall comment_ok (ecomments e).
Proof.
  assert (All : forall l, Forall (fun e => everywhere lexical_node e -> Forall comment_ok (ecomments e)) l ->
    all_of (everywhere lexical_node) l -> Forall comment_ok (List.concat (map ecomments l))).
  { induction 1 as [|x l H F IH]; intros A; [constructor|]. destruct A as [A1 A2]. cbn [map List.concat].
    apply Forall_app. auto. }
  assert (Opt : forall x, opt_all (fun e => everywhere lexical_node e -> Forall comment_ok (ecomments e)) x ->
    opt_all (everywhere lexical_node) x -> Forall comment_ok (opt_list ecomments x)).
  { intros [x|] H A; [exact (H A)|constructor]. }
  induction e using expr_ind'; intros [[_ [C _]] A]; cbn [ecomments];
    (apply wrap_ok; [exact C|]); cbn [everywhere] in *;
    repeat match goal with H : _ /\ _ |- _ => destruct H end;
    rewrite ?Forall_app; repeat split; auto.
Qed.
Lemma out_commented ps : Forall comment_ok (pcomments ps) -> Forall commented ps.
Proof.
  induction ps as [|p ps IH]; intros F; [constructor|]. unfold pcomments in F. cbn [flat_map] in F.
  apply Forall_app in F. destruct F as [F1 F2]. constructor; [|exact (IH F2)].
  destruct p as [[t|c|k|e|]| |]; try exact I. inversion F1; subst. assumption.
Qed.
Definition alike (t t' : token) : Prop := t' = t \/ same_token t t'.
Lemma alike_refl ts : Forall2 alike ts ts.
Proof. induction ts; constructor; [left; reflexivity|assumption]. Qed.
Lemma lexed_alike os : Forall2 alike (optokens os) (lexed os).
Proof.
  induction os as [|x os IH]; [constructor|]. unfold optokens, lexed. cbn [flat_map].
  apply Forall2_app; [|exact IH]. destruct x as [[[t|c|k|e|]| |]|]; try apply alike_refl.
  cbn. induction (etokens e); constructor; [right; apply same_norm_token|assumption].
Qed.
Lemma bom_lexemes t ts : t_kind t = UNICODE_BOM -> lexemes (t :: ts) = lexemes ts.
Proof. intros K. rewrite (token_eta t), K. reflexivity. Qed.

Lemma output_read o pc r out txt : cell_printer pc -> root_shaped r -> root_placed o r -> lexical r ->
  prints (root_doc o pc r) out -> rendered out txt ->
  exists es' ts L, Forall2 (tidy o (p_stmt true)) (r_exprs r) es' /\
    Forall2 (fun t t' => t' = t \/ same_token t t') (List.concat (map etokens es')) ts /\
    lex txt = Some L /\ code L = lexemes ts.
Proof.
  intros Cp Sh Pl Lx P R.
  destruct (root_shows o pc Cp r out Sh P) as [bom' [es' [Hb [Ht [Hp Hc]]]]].
  destruct (Hc Pl) as [Pm Cl]. clear Hc.
  destruct P as [os [La ->]]. pose proof (root_seal o pc Cp r Sh Lx _ _ (lay_glay _ _ _ La)) as Se.
  destruct (Se Between I I) as [L [p' [F [Le [E Pt]]]]]. cbn [held app] in E.
  assert (Ln : lets no_char p') by exact (lets_no _ _ Le).
  destruct (run_feeds os L p' F Ln) as [L2 [q [F2 [E2 Lq]]]].
  assert (Co : Forall commented (run os)).
  { apply out_commented. apply (Permutation_Forall (Permutation_sym Pm)).
    destruct Lx as [_ [C A]]. apply wrap_ok; [exact C|]. apply Forall_concat, Forall_map, Forall_forall.
    intros x I. exact (ecomments_ok _ (all_of_In _ _ _ A I)). }
  destruct (rendered_lex _ _ _ _ R F2 Lq Cl Co) as [T [T1 T2]].
  pose proof (lexed_alike os) as Al. rewrite <- (run_tokens os), Hp in Al.
  apply Forall2_app_inv_l in Al. destruct Al as [tb [ts [Ab [At Eq]]]].
  exists es', ts, T. split; [exact Ht|]. split; [exact At|]. split; [exact T1|].
  rewrite T2, E2, E, Eq. destruct Lx as [B _]. destruct (r_bom r) as [t|].
  - cbn in B, Hb. destruct B as [K _]. inversion Hb as [|? ? ? ? H1 H2]; subst. inversion H2; subst.
    unfold same_token in H1. rewrite K in H1. change (kind_eqb UNICODE_BOM STRING_CONTENT) with false in H1.
    cbn iota in H1. subst y. inversion Ab as [|? ? ? ? H3 H4]; subst. inversion H4; subst.
    assert (y = t).
    { destruct H3 as [H3|H3]; [exact H3|]. unfold same_token in H3. rewrite K in H3. exact H3. }
    subst y. apply bom_lexemes, K.
  - cbn in Hb. inversion Hb; subst. inversion Ab; subst. reflexivity.
Qed.
