(** The first and the last thing that the layout of an expression prints. *)
From Coq Require Import List Arith Bool NArith Lia.
From Verif Require Import Text SettingsModel SyntaxKind DirectiveModel FmtTree IrModel TableModel
  FmtModel FmtSpec FmtPathSpec FmtProofs FmtListProofs FmtTidyProofs DressSpec.
Import ListNotations.

(** A word first; a word last, but for held-back comments and line breaks. *)
Definition opening (w : word) : Prop :=
  match w with
  | WTok _ | WComment _ => True
  | WVerb e => etokens e <> []
  | WPad _ | WBreak => False
  end.
Definition firstw (os : list op) : Prop :=
  exists w r, os = OStep (SWord w) :: r /\ opening w.
Section Loose.
(** [loose]: line breaks may follow the last word. *)
Variable loose : bool.
Definition quiet (x : op) : Prop :=
  match x with OSuffix _ _ => True | OStep (SLine false) => loose = true | _ => False end.
Definition lastw (os : list op) : Prop :=
  exists r w t, os = r ++ OStep (SWord w) :: t /\ w <> WBreak /\ Forall quiet t.

Lemma firstw_app a b : firstw a -> firstw (a ++ b).
Proof. intros [w [r [-> N]]]. exists w, (r ++ b). split; [reflexivity|exact N]. Qed.
Lemma lastw_app_r a b : lastw b -> lastw (a ++ b).
Proof.
  intros [r [w [t [-> N]]]]. exists (a ++ r), w, t. rewrite <- app_assoc. split; [reflexivity|exact N].
Qed.
Lemma lastw_app_l a b : lastw a -> Forall quiet b -> lastw (a ++ b).
Proof.
  intros [r [w [t [-> [N Q]]]]] B. exists r, w, (t ++ b). rewrite <- app_assoc.
  split; [reflexivity|]. split; [exact N|apply Forall_app; auto].
Qed.
Lemma lastw_word w : w <> WBreak -> lastw [OStep (SWord w)].
Proof. intros N. exists [], w, []. repeat split; auto. Qed.

Definition FW (m : mode) (d : doc) : Prop := forall os, glay m d os -> firstw os.
Definition LW (m : mode) (d : doc) : Prop := forall os, glay m d os -> lastw os.
(** Nothing, or a word first. *)
Definition FO (m : mode) (d : doc) : Prop := forall os, glay m d os -> os = [] \/ firstw os.
(** A word last, or no word. *)
Definition LO (m : mode) (d : doc) : Prop := forall os, glay m d os -> Forall quiet os \/ lastw os.

Lemma FW_word m w : opening w -> FW m (DWord w).
Proof. intros N os H. cbn [glay] in H. subst. exists w, []. auto. Qed.
Lemma LW_word m w : w <> WBreak -> LW m (DWord w).
Proof. intros N os H. cbn [glay] in H. subst. apply lastw_word, N. Qed.
Lemma FW_token m t : FW m (token_doc t).
Proof. apply FW_word. exact I. Qed.
Lemma LW_token m t : LW m (token_doc t).
Proof. apply LW_word. discriminate. Qed.
Lemma FW_left m a b : FW m a -> FW m (DCat a b).
Proof. intros F os [x [y [A [_ ->]]]]. apply firstw_app, F, A. Qed.
Lemma FW_skip m a b : FO m a -> FW m b -> FW m (DCat a b).
Proof.
  intros F G os [x [y [A [B ->]]]]. destruct (F x A) as [->|W]; [exact (G y B)|apply firstw_app, W].
Qed.
Lemma LW_right m a b : LW m b -> LW m (DCat a b).
Proof. intros F os [x [y [_ [B ->]]]]. apply lastw_app_r, F, B. Qed.
Lemma LW_left m a b : LW m a -> LO m b -> LW m (DCat a b).
Proof.
  intros F G os [x [y [A [B ->]]]]. destruct (G y B) as [Q|W].
  - apply lastw_app_l; [apply F, A|exact Q].
  - apply lastw_app_r, W.
Qed.
Lemma LO_nil m : LO m DNil.
Proof. intros os H. cbn [glay] in H. subst. left. constructor. Qed.
Lemma LO_cat m a b : LO m a -> LO m b -> LO m (DCat a b).
Proof.
  intros F G os [x [y [A [B ->]]]]. destruct (G y B) as [Q|W]; [|right; apply lastw_app_r, W].
  destruct (F x A) as [Q'|W]; [left; apply Forall_app; auto|right; apply lastw_app_l; assumption].
Qed.
Lemma LO_last m d : LW m d -> LO m d.
Proof. intros F os H. right. exact (F os H). Qed.
Lemma FW_group m e d : (forall m', FW m' d) -> FW m (DGroup e d).
Proof. intros F os [m' H]. exact (F m' os H). Qed.
Lemma LW_group m e d : (forall m', LW m' d) -> LW m (DGroup e d).
Proof. intros F os [m' H]. exact (F m' os H). Qed.
Lemma FW_best m a b : (forall m', FW m' a) -> (forall m', FW m' b) -> FW m (DBest a b).
Proof. intros F G os [m' [H|H]]; [exact (F m' os H)|exact (G m' os H)]. Qed.
Lemma LW_best m a b : (forall m', LW m' a) -> (forall m', LW m' b) -> LW m (DBest a b).
Proof. intros F G os [m' [H|H]]; [exact (F m' os H)|exact (G m' os H)]. Qed.
Lemma LW_indent m d : LW m d -> LW m (indent d).
Proof. intros F os H. apply F, glay_indent, H. Qed.

(** Comments. *)
Lemma FO_leading m cs : FO m (leading_comments cs).
Proof.
  destruct cs as [|c cs]; intros os H; [left; exact H|right].
  unfold leading_comments in H. cbn [map cat] in H. split_lay H.
  apply firstw_app. split_lay A. cbn [glay] in A0. subst. eexists _, _. split; [reflexivity|exact I].
Qed.
Lemma LO_trailing m cs : LO m (trailing_comments cs).
Proof.
  intros os H. left. unfold trailing_comments in H. revert H. generalize 0. revert os.
  induction cs as [|c cs IH]; intros os k H; cbn [trailing_from] in H; [cbn [glay] in H; subst; constructor|].
  split_lay H. apply Forall_app. split.
  - cbn [glay] in A. subst. repeat constructor.
  - split_lay H. apply Forall_app. split.
    + cbn [glay] in A0. subst. constructor.
    + split_lay H. lay_nil H. rewrite app_nil_r. exact (IH _ _ A1).
Qed.
Lemma quiet_line l m os : loose = true -> l = LHard \/ l = LSoft -> glay m (DLine l) os -> Forall quiet os.
Proof. intros Lo [->| ->] H; cbn [glay] in H; [|destruct m]; subst os; repeat constructor; exact Lo. Qed.
Lemma not_lastw_nil : ~ lastw [].
Proof. intros [r [w [t [E _]]]]. destruct r; discriminate. Qed.
Lemma LW_between l m d : loose = true -> l = LHard \/ l = LSoft -> LW m d ->
  LW m (if is_nil d then DNil else cat [DIndent (DCat (DLine l) d); DLine l]).
Proof.
  intros Lo El F os H. destruct (is_nil d) eqn:E.
  - destruct (not_lastw_nil (F [] (is_nil_glay_nil d E m))).
  - revert os H. apply LW_left; [apply LW_right, F|].
    intros os [x [y [A [B ->]]]]. cbn [cat glay] in B. subst y. left. rewrite app_nil_r.
    exact (quiet_line l m x Lo El A).
Qed.
Lemma LW_soft m d : loose = true \/ m = Flat -> LW m d -> LW m (soft_block_indent d).
Proof.
  intros [Lo|Fl] F; [apply LW_between; auto|]. subst m. unfold soft_block_indent. intros os H.
  destruct (is_nil d) eqn:E; [destruct (not_lastw_nil (F [] (is_nil_glay_nil d E Flat)))|].
  revert os H. apply LW_left; [apply LW_right, F|].
  intros os [x [y [A [B ->]]]]. cbn [cat glay] in A, B. subst. left. constructor.
Qed.
Lemma LW_dangling_content m c cs : loose = true -> LW m (dangling_content (c :: cs)).
Proof.
  intros Lo.
  assert (L : LO m (DLine LHard)) by (intros os H; left; exact (quiet_line _ _ _ Lo (or_introl eq_refl) H)).
  revert c. induction cs as [|c' cs IH]; intros c.
  - cbn [dangling_content cat]. apply LW_left; [apply LW_word; discriminate|].
    apply LO_cat; [exact L|apply LO_nil].
  - change (dangling_content (c :: c' :: cs)) with
      (cat [DWord (WComment (c_text c)); DLine LHard; dangling_content (c' :: cs)]).
    cbn [cat]. apply LW_left; [apply LW_word; discriminate|].
    apply LO_cat; [exact L|]. apply LO_cat; [apply LO_last, IH|apply LO_nil].
Qed.
Lemma LO_dangling m cs : loose = true \/ cs = [] -> LO m (dangling_soft cs).
Proof.
  intros H. destruct cs as [|c cs]; [apply LO_nil|]. destruct H as [Lo|H]; [|discriminate H].
  apply LO_last, LW_group. intros m'. apply LW_soft; [auto|]. apply LW_dangling_content, Lo.
Qed.

Lemma FW_verbatim m e : etokens e <> [] -> FW m (verbatim e).
Proof. intros N. apply FW_skip; [apply FO_leading|]. apply FW_left, FW_word, N. Qed.
Lemma LW_verbatim m e : LW m (verbatim e).
Proof.
  apply LW_right, LW_left; [apply LW_word; discriminate|].
  apply LO_cat; [apply LO_trailing|apply LO_nil].
Qed.
Section Node.
Variable o : format_options.
Variable pc : doc -> option (list piece).
Lemma FW_node m anc e f g : etokens e <> [] -> FW m f -> FW m (node_rule o anc e f g).
Proof.
  intros N F. unfold node_rule. destruct (suppressed o anc e); [apply FW_verbatim, N|].
  apply FW_skip; [apply FO_leading|apply FW_left, F].
Qed.
Lemma LW_node m anc e f g : LW m f -> LO m g -> LW m (node_rule o anc e f g).
Proof.
  intros F G. unfold node_rule. destruct (suppressed o anc e); [apply LW_verbatim|].
  apply LW_right, LW_left; [exact F|]. apply LO_cat; [exact G|].
  apply LO_cat; [apply LO_trailing|apply LO_nil].
Qed.

(** Both at once. *)
Definition ED (m : mode) (d : doc) : Prop := FW m d /\ LW m d.
(** The document of a node, with its comments around it. *)
Definition framed (anc : list frame) (e : expr) (d : doc) : Prop :=
  exists f g, d = node_rule o anc e f g /\ forall m, ED m f /\ LO m g.
Lemma framed_node anc e f : (forall m, ED m f) -> framed anc e (node_rule o anc e f DNil).
Proof. intros H. exists f, DNil. split; [reflexivity|]. intros m. split; [apply H|apply LO_nil]. Qed.
Lemma framed_soft anc e f : loose = true \/ n_dang (notes_of e) = [] -> (forall m, ED m f) ->
  framed anc e (node_rule_soft o anc e f).
Proof.
  intros N H. exists f, (dangling_soft (n_dang (notes_of e))). split; [reflexivity|].
  intros m. split; [apply H|apply LO_dangling, N].
Qed.
Lemma framed_ED m anc e d : etokens e <> [] -> framed anc e d -> ED m d.
Proof.
  intros N [f [g [-> H]]]. destruct (H m) as [[F L] G].
  split; [apply FW_node; [exact N|exact F]|apply LW_node; [exact L|exact G]].
Qed.
Lemma ED_group m e d : (forall m', ED m' d) -> ED m (DGroup e d).
Proof. intros H. split; [apply FW_group|apply LW_group]; intros m'; apply H. Qed.

(** A token, anything, a token. *)
Lemma LW_end m ds t : LW m (cat (ds ++ [token_doc t])).
Proof.
  induction ds as [|d ds IH]; [apply LW_left; [apply LW_token|apply LO_nil]|].
  cbn [app cat]. apply LW_right, IH.
Qed.
Lemma ED_enclosed m t ds t' : ED m (cat (token_doc t :: ds ++ [token_doc t'])).
Proof. split; [apply FW_left, FW_token|exact (LW_end m (token_doc t :: ds) t')]. Qed.

Lemma LW_braces m d : LW m (in_braces d).
Proof. apply (ED_enclosed m tLCURLY [block_indent d] tRCURLY). Qed.
Lemma LW_if_broken m d : LW m d -> LW m (in_braces_if_broken d).
Proof.
  intros L. apply LW_right. destruct m.
  - apply LW_left; [apply LW_soft; auto|].
    intros os [x [y [A [B ->]]]]. cbn [cat glay token_doc] in A, B. subst. left. constructor.
  - apply LW_right. apply LW_left; [|apply LO_nil].
    intros os H. cbn [glay token_doc] in H. subst. apply lastw_word. discriminate.
Qed.
Lemma LW_loop_body m b d : LW m d -> LW m (loop_body b d).
Proof. intros L. unfold loop_body. destruct (is_braced b); [exact L|apply LW_braces]. Qed.
Lemma LW_function_body m b d : LW m d -> LW m (function_body b d).
Proof.
  intros L. unfold function_body. destruct (is_braced b); [exact L|].
  destruct (n_newline _); [apply LW_braces|apply LW_if_broken, L].
Qed.
Lemma LW_if_body m a f b d : LW m d -> LW m (if_body a f b d).
Proof.
  intros L. unfold if_body. destruct (is_braced b); [exact L|].
  destruct (is_if b && a); [exact L|]. destruct f; [apply LW_braces|apply LW_if_broken, L].
Qed.
Lemma ED_call_like m n k rc infos : ED m (rule_call_like o n k rc infos).
Proof.
  unfold rule_call_like. destruct infos as [|i0 infos0] eqn:E; [apply (ED_enclosed m _ [_] _)|].
  rewrite <- E. clear E i0 infos0.
  destruct (match k with KCall => _ | _ => _ end); [apply (ED_enclosed m _ [_] _)|]. cbv zeta.
  assert (B : forall m e hs args, ED m (all_broken_out (token_doc (l_token k)) (token_doc (r_token k)) rc
        hs args e)).
  { intros m' e hs args. apply ED_group. intros m''. apply (ED_enclosed m'' _ [_; _; _] _). }
  match goal with |- ED m (if ?b then _ else _) => destruct b end; [apply B|].
  match goal with |- ED m (if ?b then _ else _) => destruct b end; [apply B|].
  match goal with |- ED m (if ?b then _ else _) => destruct b end; [|apply B].
  unfold write_grouped. destruct (last_opt _); [|apply B]. cbv zeta.
  destruct (existsb _ _); [apply B|].
  match goal with |- ED m (if ?b then all_broken_out _ _ _ _ _ _ else _) => destruct b end; [apply B|].
  assert (V : forall m hs args w, ED m (cat [ token_doc (l_token k); holes_doc hs;
      maybe_space (nonempty hs && nonempty args);
      join_grouped (length args =? 1) true w args; token_doc (r_token k) ]))
    by (intros; apply (ED_enclosed _ _ [_; _; _] _)).
  assert (Bs : forall m a b, (forall m', ED m' a) -> (forall m', ED m' b) -> ED m (DBest a b)).
  { intros m' a b Ha Hb. split; [apply FW_best|apply LW_best]; intros m''; apply Ha || apply Hb. }
  destruct (will_break _).
  - assert (X : ED m (DBest (cat [ token_doc (l_token k); holes_doc (take_holes (with_seps infos));
      maybe_space (nonempty (take_holes (with_seps infos)) && nonempty (drop_holes (with_seps infos)));
      join_grouped (length (drop_holes (with_seps infos)) =? 1) true (group true) (drop_holes (with_seps infos)); token_doc (r_token k) ])
      (all_broken_out (token_doc (l_token k)) (token_doc (r_token k)) rc
        (take_holes (with_seps infos)) (drop_holes (with_seps infos)) true))).
    { apply Bs; intros m'; [apply V|apply B]. }
    split; [|apply LW_right, X]. apply FW_skip; [|apply X]. intros os H. left. exact H.
  - apply Bs; intros m'; [apply V|]. apply Bs; intros m''; [apply V|apply B].
Qed.

End Node.
End Loose.

Section Edges.
Variable o : format_options.
Variable pc : doc -> option (list piece).

Lemma spine_first N (IH : forall x, esize x < N -> sort_of x = SoExpr -> shaped x ->
    forall anc fo m, FW m (fmt o pc anc fo x)) :
  forall l, esize l < N -> sort_of l = SoExpr -> shaped l ->
  forall anc dl tail m, spine o pc anc l = (dl, tail) -> FW m dl.
Proof.
  assert (Stop : forall l anc dl tail m, esize l < N -> sort_of l = SoExpr -> shaped l ->
    (fmt o pc anc fo0 l, []) = (dl, tail : list tail_piece) -> FW m dl).
  { intros l anc dl tail m Sz So Sh E. injection E as <- _. apply IH; assumption. }
  induction l as [| | n l op r IHl IHr| | | | | | | | | | | | | | | | |] using expr_ind';
    intros Sz So Sh anc dl tail m Sp; try exact (Stop _ _ _ _ _ Sz So Sh Sp).
  cbn [spine] in Sp. destruct (is_chain_op op) eqn:EC; [|exact (Stop _ _ _ _ _ Sz So Sh Sp)].
  destruct (spine o pc (FBinary op :: anc) l) as [dl' tail'] eqn:ES. injection Sp as <- _.
  cbn [esize] in Sz. destruct Sh as [[Sl Shl] _].
  exact (IHl ltac:(lia) Sl Shl _ _ _ m ES).
Qed.

Lemma some_token e : shaped e -> sort_of e = SoExpr \/ sort_of e = SoElse \/ sort_of e = SoArgs ->
  etokens e <> [].
Proof.
  assert (A : forall (l r : list token) t, l ++ t :: r <> []) by (intros [] ? ?; discriminate).
  intros Sh So E. destruct e; try (destruct So as [So|[So|So]]; discriminate); cbn [etokens] in E;
    try discriminate; try exact (A _ _ _ E); [exact (Sh E)|].
  apply app_eq_nil in E. destruct Sh as [_ [Sa _]], E as [_ E].
  destruct e2; discriminate.
Qed.
Lemma or_calm (lo : bool) (P Q : Prop) : (P -> Q) -> lo = true \/ P -> lo = true \/ Q.
Proof. tauto. Qed.
Lemma fmt_framed : forall N e, esize e < N -> shaped e ->
  sort_of e = SoExpr \/ sort_of e = SoElse \/ sort_of e = SoArgs ->
  forall lo, lo = true \/ calm e -> forall anc fo, framed lo o anc e (fmt o pc anc fo e).
Proof.
  induction N as [|N IH]; intros e Sz Sh So lo Ca anc fo; [lia|].
  assert (IHl : forall x, esize x < esize e -> sort_of x = SoExpr /\ shaped x -> lo = true \/ calm x ->
    forall anc fo m, LW lo m (fmt o pc anc fo x)).
  { intros x Sx [Sox Shx] Cx anc' fo' m. eapply framed_ED; [|apply IH; [lia|exact Shx|auto|exact Cx]].
    apply some_token; auto. }
  assert (IHf : forall x, esize x < N -> sort_of x = SoExpr /\ shaped x ->
    forall anc fo m, FW m (fmt o pc anc fo x)).
  { intros x Sx [Sox Shx] anc' fo' m.
    eapply (framed_ED true); [|apply IH; [lia|exact Shx|auto|auto]]. apply some_token; auto. }
  assert (TN : etokens e <> []) by (apply some_token; assumption).
  destruct e as [n k ts|n op a|n l op r|n l op r|n l op r|n name ps b|n items|n a d|n v|n c t el
    |n nl a|n v s b|n c b|n b|n es|n b|n f args|n k rc items|n nm v sl|n nm];
    try (destruct So as [So|[So|So]]; discriminate);
    try change (fmt o pc anc fo (EArgs n k rc items)) with
      (node_rule o anc (EArgs n k rc items)
        (rule_args o pc (EArgs n k rc items) n k rc
           (match fo_table fo with Some t => t | None => false end)
           (map (arg_info o pc anc) items)) DNil);
    cbn [fmt]; cbn [shaped] in Sh; cbn [esize] in IHl, Sz; cbn [calm] in Ca.
  - apply framed_soft; [exact Ca|]. intros m. destruct ts as [|t ts]; [contradiction|].
    split; [apply FW_left, FW_token|].
    clear. revert t. induction ts as [|t' ts IH]; intros t; cbn [map cat].
    + apply LW_left; [apply LW_token|apply LO_nil].
    + apply LW_right. exact (IH t').
  - apply framed_soft; [revert Ca; apply or_calm; tauto|]. intros m.
    split; [apply FW_left, FW_token|]. apply LW_right, LW_right.
    apply LW_left; [|apply LO_nil].
    assert (A : LW lo m (fmt o pc (FUnary op :: anc) fo0 a)).
    { apply IHl; [lia|exact Sh|]. revert Ca. apply or_calm. tauto. }
    destruct Ca as [Lo|(_ & N1 & N2 & N3 & _)].
    + destruct (_ && _); [apply LW_soft; [auto|]|]; exact A.
    + assert (has_comments (notes_of a) = false) as -> by (unfold has_comments; rewrite N1, N2, N3; reflexivity).
      exact A.
  - destruct Sh as [Sl Sr].
    assert (L : forall anc fo m, FW m (fmt o pc anc fo l)) by (apply IHf; [lia|exact Sl]).
    assert (R : forall anc fo m, LW lo m (fmt o pc anc fo r)).
    { apply IHl; [lia|exact Sr|]. revert Ca. apply or_calm. tauto. }
    apply framed_soft; [revert Ca; apply or_calm; tauto|]. intros m.
    destruct (classify (t_kind op)) eqn:EC.
    + apply ED_group. intros m'. split; [apply FW_left, L|].
      apply LW_right, LW_right, LW_left; [apply R|apply LO_nil].
    + apply ED_group. intros m'. split; [apply FW_left, L|].
      apply LW_right, LW_right, LW_right, LW_left; [|apply LO_nil].
      destruct (persistent_assignment o op r); [apply LW_indent|]; apply LW_right, R.
    + change (ED lo m
        (let '(dl, tail) := spine o pc (FBinary op :: anc) l in
         rule_chain o (fo_left fo) dl
           (tail ++ [ {| tp_op := op; tp_right := r;
              tp_doc := fmt o pc (FBinary op :: anc) fo0 r; tp_enclosing := None |} ]))).
      destruct (spine o pc (FBinary op :: anc) l) as [dl tail] eqn:ES.
      apply ED_group. intros m'. split.
      * apply FW_left. refine (spine_first N _ l _ (proj1 Sl) (proj2 Sl) _ _ _ m' ES); [|lia].
        intros x Sx Sox Shx. apply IHf; [exact Sx|auto].
      * apply LW_right.
        assert (X : LW lo m' (cat (map chain_piece (tail ++ [ {| tp_op := op; tp_right := r;
              tp_doc := fmt o pc (FBinary op :: anc) fo0 r; tp_enclosing := None |} ])))).
        { rewrite map_app. induction (map chain_piece tail) as [|d ds IHd]; [|apply LW_right, IHd].
          apply LW_left; [|apply LO_nil]. apply LW_right, LW_right, LW_right, LW_right, LW_left;
            [apply R|apply LO_cat; apply LO_nil]. }
        destruct (fo_left fo); [exact X|apply LW_indent, X].
    + apply ED_group. intros m'. split; [apply FW_left, L|].
      apply LW_right, LW_right, LW_right, LW_left; [|apply LO_nil]. apply LW_indent, LW_right, R.
    + split; intros os [].
  - apply framed_soft; [revert Ca; apply or_calm; tauto|]. intros m. destruct Sh as [Sl Sr]. apply ED_group. intros m'.
    split; [apply FW_left, IHf; [lia|exact Sl]|].
    apply LW_right, LW_right, LW_left; [apply IHl; [lia|exact Sr|]|apply LO_nil].
    revert Ca. apply or_calm. tauto.
  - apply framed_soft; [revert Ca; apply or_calm; tauto|]. intros m. destruct Sh as [Sl Sr]. apply ED_group. intros m'.
    split; [apply FW_left, IHf; [lia|exact Sl]|].
    apply LW_right, LW_right, LW_left; [apply IHl; [lia|exact Sr|]|apply LO_nil].
    revert Ca. apply or_calm. tauto.
  - apply framed_soft; [revert Ca; apply or_calm; tauto|]. intros m. destruct Sh as [_ Sb]. apply ED_group. intros m'.
    split; [apply FW_left, FW_token|]. apply LW_right, LW_right, LW_right, LW_left; [|apply LO_nil].
    apply LW_function_body, IHl; [lia|exact Sb|]. revert Ca. apply or_calm. tauto.
  - assert (Ca' : lo = true \/ n_dang n = [] /\ match el with Some x => calm x | None => calm t end)
      by (destruct el; exact Ca).
    apply framed_soft; [revert Ca'; apply or_calm; tauto|]. intros m. destruct Sh as [_ [St Se]]. apply ED_group. intros m'.
    split; [apply FW_left, FW_token|].
    apply LW_right, LW_right, LW_right, LW_right, LW_right, LW_right. destruct el as [x|].
    + apply LW_right, LW_left; [|apply LO_nil]. apply LW_right. destruct Se as [Sx Shx].
      eapply framed_ED; [|apply IH; [|exact Shx|auto|]]; [apply some_token; auto|lia|].
      revert Ca'. apply or_calm. tauto.
    + apply LW_left; [|apply LO_cat; apply LO_nil].
      apply LW_if_body, IHl; [lia|exact St|]. revert Ca'. apply or_calm. tauto.
  - apply framed_soft; [revert Ca; apply or_calm; tauto|]. intros m.
    split; [apply FW_left, FW_token|]. apply LW_right, LW_right, LW_left; [|apply LO_nil].
    apply LW_if_body, IHl; [lia|exact Sh|]. revert Ca. apply or_calm. tauto.
  - apply framed_soft; [revert Ca; apply or_calm; tauto|]. intros m. destruct Sh as [_ [_ Sb]]. apply ED_group. intros m'.
    split; [apply FW_left, FW_token|]. do 10 apply LW_right. apply LW_left; [|apply LO_nil].
    apply LW_loop_body, IHl; [lia|exact Sb|]. revert Ca. apply or_calm. tauto.
  - apply framed_soft; [revert Ca; apply or_calm; tauto|]. intros m. destruct Sh as [_ Sb]. apply ED_group. intros m'.
    split; [apply FW_left, FW_token|]. do 6 apply LW_right. apply LW_left; [|apply LO_nil].
    apply LW_loop_body, IHl; [lia|exact Sb|]. revert Ca. apply or_calm. tauto.
  - apply framed_soft; [revert Ca; apply or_calm; tauto|]. intros m. apply ED_group. intros m'.
    split; [apply FW_left, FW_token|]. do 2 apply LW_right. apply LW_left; [|apply LO_nil].
    apply LW_loop_body, IHl; [lia|exact Sh|]. revert Ca. apply or_calm. tauto.
  - apply framed_node. intros m. unfold rule_braced. destruct (variant_of anc n es).
    + apply (ED_enclosed lo m _ [] _).
    + apply (ED_enclosed lo m _ [_] _).
    + destruct (n_dang inner); [|split; intros os []]. apply ED_group. intros m'.
      split; [apply FW_skip; [apply FO_leading|apply FW_left, FW_token]|].
      do 5 apply LW_right. apply LW_left; [apply LW_token|].
      apply LO_cat; [apply LO_trailing|apply LO_nil].
    + apply (ED_enclosed lo m _ [_] _).
  - apply framed_soft; [exact Ca|]. intros m. apply (ED_enclosed lo m _ [_] _).
  - apply framed_soft; [revert Ca; apply or_calm; tauto|]. intros m. destruct Sh as [Sf [Sa Sha]].
    split; [apply FW_left, IHf; [lia|exact Sf]|]. apply LW_right.
    eapply framed_ED; [|apply IH; [|exact Sha|auto|]]; [apply some_token; auto|lia|].
    revert Ca. apply or_calm. tauto.
  - apply framed_node. intros m. unfold rule_args. destruct k; try apply ED_call_like.
    destruct (fo_table fo) as [[]|]; try apply ED_call_like.
    destruct (map (arg_info o pc anc) items) as [|i0 infos0] eqn:E; [apply ED_call_like|].
    rewrite <- E. destruct (build_table _ _ _ _) as [t|].
    + apply ED_group. intros m'. apply (ED_enclosed lo m' _ [_] _).
    + split; [apply FW_verbatim, TN|apply LW_verbatim].
Qed.
Lemma expr_edges e anc fo m os :
  sort_of e = SoExpr -> shaped e -> glay m (fmt o pc anc fo e) os -> firstw os /\ lastw true os.
Proof.
  intros So Sh H.
  destruct (framed_ED true o m anc e _ (some_token e Sh (or_introl So))
    (fmt_framed (S (esize e)) e ltac:(lia) Sh (or_introl So) true (or_introl eq_refl) anc fo)) as [F L].
  split; [exact (F os H)|exact (L os H)].
Qed.
End Edges.
