(** Line breaks written as text ([WBreak]) follow a line break: nothing on a
    line is followed by one. *)
From Coq Require Import List Arith Bool NArith Lia.
From Verif Require Import Text SettingsModel SyntaxKind DirectiveModel FmtTree IrModel TableModel
  FmtModel FmtSpec FmtProofs FmtListProofs FmtTidyProofs.
Import ListNotations.

Fixpoint still (after : bool) (os : list op) : Prop :=
  match os with
  | [] => True
  | OStep (SLine _) :: r => still true r
  | OStep (SWord WBreak) :: r => after = true /\ still false r
  | _ :: r => still false r
  end.
Lemma still_more os : forall a, still false os -> still a os.
Proof.
  intros a H. destruct os as [|x os]; [exact Logic.I|]. destruct x as [[[]| |]|]; cbn [still] in *; try exact H.
  destruct H as [H _]. discriminate H.
Qed.
Lemma still_app x y : forall a, still a x -> still false y -> still a (x ++ y).
Proof.
  induction x as [|b x IH]; intros a H K; [apply still_more, K|].
  destruct b as [[[]| |]|]; cbn [app still] in *; try (apply IH; assumption).
  destruct H. split; [assumption|apply IH; assumption].
Qed.
Lemma still_rest x y : forall a, still a (x ++ y) -> exists b, still b y.
Proof.
  induction x as [|c x IH]; intros a H; [exists a; exact H|].
  destruct c as [[[]| |]|]; cbn [app still] in H; try (eapply IH; exact H).
  destruct H as [_ H]. eapply IH. exact H.
Qed.

Definition steady (d : doc) : Prop := forall m os, glay m d os -> still false os.
Create HintDb steady.
Lemma steady_nil : steady DNil.
Proof. intros m os H. cbn in H. subst. exact Logic.I. Qed.
Lemma steady_cat a b : steady a -> steady b -> steady (DCat a b).
Proof. intros A B m os (x & y & X & Y & ->). apply still_app; [exact (A _ _ X)|exact (B _ _ Y)]. Qed.
Lemma steady_word w : w <> WBreak -> steady (DWord w).
Proof. intros N m os H. cbn in H. subst. destruct w; try exact Logic.I. contradiction. Qed.
Lemma steady_space : steady DSpace.
Proof. intros m os H. cbn in H. subst. exact Logic.I. Qed.
Lemma steady_line l : steady (DLine l).
Proof. intros m os H. destruct l, m; cbn in H; subst; exact Logic.I. Qed.
Lemma steady_indent d : steady d -> steady (DIndent d).
Proof. intros D m os H. exact (D m os H). Qed.
Lemma steady_group e d : steady d -> steady (DGroup e d).
Proof. intros D m os [m' H]. exact (D m' os H). Qed.
Lemma steady_if d : steady d -> steady (DIfBreaks d).
Proof. intros D [] os H; cbn [glay] in H; [subst; exact Logic.I|exact (D _ _ H)]. Qed.
Lemma steady_expand : steady DExpandParent.
Proof. intros m os H. cbn in H. subst. exact Logic.I. Qed.
Lemma steady_suffix g c : steady (DSuffix g c).
Proof. intros m os H. cbn in H. subst. exact Logic.I. Qed.
Lemma steady_best a b : steady a -> steady b -> steady (DBest a b).
Proof. intros A B m os [m' [H|H]]; [exact (A _ _ H)|exact (B _ _ H)]. Qed.
Lemma steady_panic : steady DPanic.
Proof. intros m os []. Qed.
Lemma steady_remove d : steady d -> steady (remove_soft d).
Proof. intros D m os H. exact (D _ _ (glay_remove_soft d m os H)). Qed.
Lemma steady_token t : steady (token_doc t).
Proof. apply steady_word. discriminate. Qed.
#[local] Hint Resolve steady_nil steady_cat steady_space steady_line steady_indent steady_group steady_if
  steady_expand steady_suffix steady_best steady_panic steady_remove steady_token : steady.
Ltac st := auto 20 with steady.
Lemma steady_cats l : Forall steady l -> steady (cat l).
Proof. induction 1; cbn [cat]; st. Qed.
Lemma steady_map {A} (f : A -> doc) l : (forall x, In x l -> steady (f x)) -> steady (cat (map f l)).
Proof. intros H. apply steady_cats, Forall_forall. intros d I. apply in_map_iff in I. destruct I as (x & <- & I). auto. Qed.
Lemma steady_ind d : steady d -> steady (indent d).
Proof. unfold indent. destruct (is_nil d); st. Qed.
Lemma steady_block d : steady d -> steady (block_indent d).
Proof. unfold block_indent. destruct (is_nil d); cbn [cat]; st. Qed.
Lemma steady_soft_block d : steady d -> steady (soft_block_indent d).
Proof. unfold soft_block_indent. destruct (is_nil d); cbn [cat]; st. Qed.
Lemma steady_space_block d : steady d -> steady (soft_space_or_block_indent d).
Proof. unfold soft_space_or_block_indent. destruct (is_nil d); cbn [cat]; st. Qed.
Lemma steady_grouped e d : steady d -> steady (group e d).
Proof. apply steady_group. Qed.
Lemma steady_maybe b : steady (maybe_space b).
Proof. destruct b; unfold maybe_space; st. Qed.
Lemma steady_comment c : steady (DWord (WComment c)).
Proof. apply steady_word. discriminate. Qed.
#[local] Hint Resolve steady_ind steady_block steady_soft_block steady_space_block steady_grouped steady_maybe
  steady_comment : steady.
Lemma steady_leading cs : steady (leading_comments cs).
Proof. apply steady_map. intros c _. cbn [cat]. st. Qed.
Lemma steady_trailing cs : forall k, steady (trailing_from k cs).
Proof. induction cs as [|c cs IH]; intros k; cbn [trailing_from cat]; cbv zeta; st. Qed.
Lemma steady_dangling cs : steady (dangling_content cs).
Proof. induction cs as [|c [|d cs] IH]; cbn [dangling_content cat] in *; st. Qed.
Lemma steady_dangling_block cs : steady (dangling_block cs).
Proof. pose proof (steady_dangling cs). unfold dangling_block. destruct cs; st. Qed.
Lemma steady_dangling_soft cs : steady (dangling_soft cs).
Proof. pose proof (steady_dangling cs). unfold dangling_soft. destruct cs; st. Qed.
#[local] Hint Resolve steady_leading steady_trailing steady_dangling_block steady_dangling_soft : steady.
Lemma steady_trail cs : steady (trailing_comments cs).
Proof. apply steady_trailing. Qed.
#[local] Hint Resolve steady_trail : steady.
Lemma steady_verbatim e : steady (verbatim e).
Proof. unfold verbatim. cbn [cat]. assert (steady (DWord (WVerb e))) by (apply steady_word; discriminate). st. Qed.
Lemma steady_braces d : steady d -> steady (in_braces d).
Proof. unfold in_braces. cbn [cat]. st. Qed.
Lemma steady_if_broken d : steady d -> steady (in_braces_if_broken d).
Proof. unfold in_braces_if_broken. cbn [cat]. st. Qed.
#[local] Hint Resolve steady_verbatim steady_braces steady_if_broken : steady.
Lemma steady_break double lines : steady (entry_break double lines).
Proof.
  unfold entry_break. destruct double; [|destruct (1 <? lines); st].
  destruct (2 <? lines); [|destruct (lines =? 2); st].
  intros m os (x & y & X & (x' & y' & X' & Y' & ->) & ->). cbn in X, X', Y'. subst. repeat split.
Qed.
#[local] Hint Resolve steady_break : steady.
Lemma steady_entries double l : forall first, (forall e d, In (e, d) l -> steady d) -> steady (join_entries double first l).
Proof.
  induction l as [|[e d] l IH]; intros first H; cbn [join_entries cat]; [st|].
  assert (steady d) by (eapply H; left; reflexivity).
  assert (steady (join_entries double false l)) by (apply IH; intros; eapply H; right; eassumption).
  destruct first; st.
Qed.
Lemma steady_params l : forall first, (forall e d, In (e, d) l -> steady d) -> steady (join_params first l).
Proof.
  induction l as [|[e d] l IH]; intros first H; cbn [join_params cat]; [st|].
  assert (steady d) by (eapply H; left; reflexivity).
  assert (steady (join_params false l)) by (apply IH; intros; eapply H; right; eassumption).
  destruct first, l; st.
Qed.

Section Rules.
Variable o : format_options.
Variable pc : doc -> option (list piece).

Lemma steady_node anc e f g : steady f -> steady g -> steady (node_rule o anc e f g).
Proof. unfold node_rule. destruct (suppressed o anc e); cbn [cat]; st. Qed.
Lemma steady_soft anc e f : steady f -> steady (node_rule_soft o anc e f).
Proof. intros F. apply steady_node; st. Qed.
Lemma steady_loop b d : steady d -> steady (loop_body b d).
Proof. unfold loop_body. destruct (is_braced b); st. Qed.
Lemma steady_function_body b d : steady d -> steady (function_body b d).
Proof. unfold function_body. destruct (is_braced b); [st|]. destruct (n_newline _); st. Qed.
Lemma steady_if_body a f b d : steady d -> steady (if_body a f b d).
Proof. unfold if_body. destruct (is_braced b); [st|]. destruct (is_if b && a); [st|]. destruct f; st. Qed.
Hint Resolve steady_loop steady_function_body steady_if_body : steady.

Lemma steady_arg a : steady (ai_doc (fst a)) -> steady (arg_doc a).
Proof. unfold arg_doc. destruct (snd a); st. Qed.
Definition fine (i : ainfo) : Prop :=
  steady (ai_doc i) /\ match ai_function i with Some d => steady d | None => True end.
Lemma steady_broken l : forall first, (forall a, In a l -> fine (fst a)) -> steady (broken_args first l).
Proof.
  induction l as [|a l IH]; intros first H; cbn [broken_args cat]; [st|].
  assert (steady (arg_doc a)) by (apply steady_arg, H; left; reflexivity).
  assert (steady (broken_args false l)) by (apply IH; intros; apply H; right; assumption).
  destruct first; st.
Qed.
Lemma steady_holes l : (forall a, In a l -> fine (fst a)) -> steady (holes_doc l).
Proof. intros H. apply steady_map. intros a I. apply steady_arg, H, I. Qed.
Lemma steady_all_broken k rc hs args e : (forall a, In a hs -> fine (fst a)) -> (forall a, In a args -> fine (fst a)) ->
  steady (all_broken_out (token_doc (l_token k)) (token_doc (r_token k)) rc hs args e).
Proof.
  intros H K. unfold all_broken_out. pose proof (steady_holes _ H). pose proof (steady_broken _ true K). cbn [cat].
  match goal with |- context [if ?b then _ else _] => destruct b end; st.
Qed.
Lemma steady_last only a : fine (fst a) -> steady (grouped_last only a).
Proof.
  intros [D F]. unfold grouped_last. destruct (ai_function (fst a)); [|apply steady_arg, D].
  destruct only; [apply steady_arg, D|]. destruct (snd a); st.
Qed.
Lemma steady_join only wrap l (W : forall d, steady d -> steady (wrap d)) :
  forall first, (forall a, In a l -> fine (fst a)) -> steady (join_grouped only first wrap l).
Proof.
  induction l as [|a l IH]; intros first H; cbn [join_grouped cat]; [st|].
  assert (F : fine (fst a)) by (apply H; left; reflexivity).
  assert (steady (join_grouped only false wrap l)) by (apply IH; intros; apply H; right; assumption).
  pose proof (steady_arg a (proj1 F)). pose proof (W _ (steady_last only a F)). destruct first, l; st.
Qed.
Lemma in_take l a : In a (take_holes l) -> In a l.
Proof. induction l as [|b l IH]; cbn [take_holes]; [auto|]. destruct (leading_hole b); [|intros []]. intros [->|I]; [left; reflexivity|right; auto]. Qed.
Lemma in_drop l a : In a (drop_holes l) -> In a l.
Proof. induction l as [|b l IH]; cbn [drop_holes]; [auto|]. destruct (leading_hole b); [|auto]. intros I. right. auto. Qed.
Lemma steady_call_like n k rc infos : (forall i, In i infos -> fine i) -> steady (rule_call_like o n k rc infos).
Proof.
  intros H. unfold rule_call_like. cbv zeta. destruct infos as [|i0 infos0] eqn:E; [cbn [cat]; st|]. rewrite <- E in *. clear E i0 infos0.
  assert (S : forall a, In a (with_seps infos) -> fine (fst a)) by (intros a I; apply H, in_with_seps, I).
  match goal with |- steady (if ?b then _ else _) => destruct b end.
  { cbn [cat]. apply steady_cat; [st|]. apply steady_cat; [|st]. revert S. generalize (with_seps infos) true. clear.
    induction l as [|a l IH]; intros first S; [st|]. cbn [cat].
    assert (steady (arg_doc a)) by (apply steady_arg, S; left; reflexivity).
    pose proof (IH false ltac:(intros; apply S; right; assumption)). destruct first; st. }
  assert (S1 : forall a, In a (take_holes (with_seps infos)) -> fine (fst a)) by (intros; apply S, in_take; assumption).
  assert (S2 : forall a, In a (drop_holes (with_seps infos)) -> fine (fst a)) by (intros; apply S, in_drop; assumption).
  assert (B : forall e, steady (all_broken_out (token_doc (l_token k)) (token_doc (r_token k)) rc
    (take_holes (with_seps infos)) (drop_holes (with_seps infos)) e)) by (intros; apply steady_all_broken; assumption).
  match goal with |- steady (if ?b then _ else _) => destruct b end; [apply B|].
  match goal with |- steady (if ?b then _ else _) => destruct b end; [apply B|].
  match goal with |- steady (if ?b then _ else _) => destruct b end; [|apply B].
  unfold write_grouped. destruct (last_opt _) as [z|]; [|apply B]. cbv zeta.
  destruct (existsb _ _); [apply B|].
  match goal with |- steady (if ?b then all_broken_out _ _ _ _ _ _ else _) => destruct b end; [apply B|].
  pose proof (steady_holes _ S1). pose proof (B true).
  pose proof (fun only => steady_join only (fun d => d) _ (fun d D => D) true S2).
  pose proof (fun only => steady_join only (group true) _ (fun d D => steady_grouped true d D) true S2).
  destruct (will_break _); cbn [cat]; st.
Qed.

(** Tables. *)
Definition plain_piece (p : piece) : Prop := match p with PNewline | PWord WBreak => False | _ => True end.
Lemma cell_plain a ps : cell_text pc a = Some ps -> Forall plain_piece ps.
Proof.
  unfold cell_text. destruct (pc _) as [qs|]; [|discriminate]. destruct (existsb _ qs) eqn:E; [discriminate|].
  intros H. injection H as ->. apply Forall_forall. intros p I.
  destruct p as [[]| |]; try exact Logic.I; exfalso;
    (assert (T : existsb (fun p => match p with PNewline => true | PWord w => word_breaks w | PSpace => false end) ps = true);
     [apply existsb_exists; eexists; split; [exact I|reflexivity]|congruence]).
Qed.
Lemma raw_steady ps : Forall plain_piece ps -> steady (raw_pieces ps).
Proof.
  intros F. apply steady_map. intros p I. rewrite Forall_forall in F. specialize (F p I).
  destruct p as [w| |]; [|apply steady_word; discriminate|contradiction].
  apply steady_word. intros ->. exact F.
Qed.
Definition fine_cell (c : cell ainfo) : Prop :=
  fine (ce_arg _ c) /\ match ce_kind _ c with Other ps => Forall plain_piece ps | _ => True end.
Lemma parsed_plain v a k : parse_kind v (cell_text pc a) = Some k ->
  match k with Other ps => Forall plain_piece ps | _ => True end.
Proof.
  intros H. destruct k as [|ps]; [exact Logic.I|]. unfold parse_kind in H. cbv zeta in H.
  assert (Ot : match cell_text pc a with None => None | Some ps => Some (Other ps) end = Some (Other ps) -> Forall plain_piece ps).
  { intros K. destruct (cell_text pc a) as [qs|] eqn:E; [|discriminate K]. injection K as <-. exact (cell_plain a qs E). }
  assert (Li : forall e, literal_kind e <> Some (Other ps)).
  { intros e. unfold literal_kind. destruct e; try discriminate. destruct ts as [|t [|]]; try discriminate.
    destruct (kind_eqb k R_INTEGER_VALUE); [discriminate|]. destruct (kind_eqb k R_DOUBLE_VALUE); [|discriminate].
    unfold decimal_kind. destruct (find_dot _); discriminate. }
  destruct v as [v|]; [|exact (Ot H)].
  assert (G : match literal_kind v with Some k => Some k | None => match cell_text pc a with None => None | Some ps => Some (Other ps) end end = Some (Other ps) -> Forall plain_piece ps).
  { intros K. destruct (literal_kind v) eqn:E; [injection K as ->; destruct (Li _ E)|exact (Ot K)]. }
  destruct v; try exact (G H).
  destruct (_ || _); [|exact (Ot H)]. destruct (literal_kind v) as [[iw fw|qs]|]; [discriminate H| |]; exact (Ot H).
Qed.
Lemma build_fine args : forall rs row cs t, Forall (Forall fine_cell) rs -> Forall fine_cell row ->
  (forall a, In a args -> fine (fst a)) -> build_loop ainfo ai_node (cell_text pc) rs row cs args = Some t ->
  Forall (Forall fine_cell) (rows _ t) /\ (forall a, In a (remaining _ t) -> fine (fst a)).
Proof.
  induction args as [|[a sep] args IH]; intros rs row cs t Fr Fw Fa H; cbn [build_loop] in H.
  - injection H as <-. cbn [rows remaining]. split; [|intros _ []].
    destruct (_ =? 0); [exact Fr|apply Forall_app; auto].
  - destruct (arg_named (ai_node a)).
    + injection H as <-. cbn [rows remaining]. split; [|exact Fa]. destruct (_ =? 0); [exact Fr|apply Forall_app; auto].
    + cbv zeta in H. destruct (parse_kind _ _) as [k|] eqn:E; [|discriminate H].
      eapply IH; [| | |exact H].
      * destruct (_ && _); [apply Forall_app; auto|exact Fr].
      * apply Forall_app. split; [destruct (_ && _); [constructor|exact Fw]|]. constructor; [|constructor].
        split; [exact (Fa _ (or_introl eq_refl))|exact (parsed_plain _ _ _ E)].
      * intros b I. apply Fa. right. exact I.
Qed.
Lemma steady_spaces n : steady (write_spaces n).
Proof. unfold write_spaces. destruct (0 <? n); [apply steady_word; discriminate|st]. Qed.
Hint Resolve steady_spaces : steady.
Lemma steady_table k t : Forall (Forall fine_cell) (rows _ t) -> (forall a, In a (remaining _ t) -> fine (fst a)) ->
  steady (write_table ainfo ai_node own_lead own_trail ai_doc (token_doc tCOMMA)
    (token_doc (l_token k)) (token_doc (r_token k)) t).
Proof.
  intros Fr Fm. unfold write_table. cbn [cat]. apply steady_grouped, steady_cat; [st|].
  apply steady_cat; [|st]. apply steady_soft_block, steady_cat.
  - generalize true. induction Fr as [|row rs R Rs IH]; intros first; cbn [write_rows cat]; [st|].
    assert (steady (if first then DNil else row_break ainfo ai_node row))
      by (destruct first; [st|]; unfold row_break; destruct row; st).
    apply steady_cat; [assumption|]. apply steady_cat; [|st].
    generalize 0. induction R as [|c row [[D _] K] R IHr]; intros j; cbn [write_cells]; [st|].
    apply steady_cat; [|apply IHr]; [|destruct first; [st|]; unfold row_break; destruct row; st].
    unfold write_cell. destruct (cell_padding _ _) as [lp rp]. cbn [cat].
    assert (steady match ce_kind _ c with
          | Other ps => cat [own_lead (ce_arg _ c); raw_pieces ps; own_trail (ce_arg _ c)]
          | Numeric _ _ => ai_doc (ce_arg _ c) end).
    { destruct (ce_kind _ c) as [|ps]; [exact D|]. cbn [cat]. pose proof (raw_steady ps K). unfold own_lead, own_trail. st. }
    destruct (ce_sep _ c); st.
  - unfold write_remaining. destruct (remaining _ t) as [|b l] eqn:E; [st|]. apply steady_cat; [st|].
    apply steady_map. intros [a sep] I. pose proof (proj1 (Fm _ I)) as D. cbn [cat fst] in *. destruct sep; st.
Qed.
Lemma steady_args self n k rc table infos : (forall i, In i infos -> fine i) ->
  steady (rule_args o pc self n k rc table infos).
Proof.
  intros H. pose proof (steady_call_like n k rc infos H) as C. unfold rule_args.
  destruct k; try exact C. destruct table; [|exact C]. destruct infos as [|i0 infos0] eqn:E; [exact C|]. rewrite <- E in *.
  destruct (build_table ainfo ai_node (cell_text pc) (with_seps infos)) as [t|] eqn:Eb; [|st].
  destruct (build_fine _ _ _ _ t (Forall_nil _) (Forall_nil _) (fun a I => H _ (in_with_seps _ _ I)) Eb) as [Fr Fm].
  apply (steady_table KCall t Fr Fm).
Qed.

(** Chains. *)
Lemma steady_piece pt : steady (tp_doc pt) -> steady (chain_piece pt).
Proof.
  intros D. unfold chain_piece. cbn [cat]. destruct (tp_enclosing pt) as [n|]; [destruct (n_lead n ++ n_dang n)|]; st.
Qed.

Lemma fmt_steady : forall N e, esize e < N -> forall anc fo, steady (fmt o pc anc fo e).
Proof.
  induction N as [|N IH]; intros e Sz anc fo; [lia|].
  assert (IHc : forall x, esize x < esize e -> forall anc fo, steady (fmt o pc anc fo x)) by (intros x Sx a f; refine (IH x _ a f); lia).
  assert (SP : forall l, esize l < esize e -> forall anc dl tail, spine o pc anc l = (dl, tail) ->
    steady dl /\ Forall (fun t => steady (tp_doc t)) tail).
  { clear - IHc. induction l as [| | n l op r IHl IHr| | | | | | | | | | | | | | | | |] using expr_ind';
      intros Sl anc dl tail Sp; cbn [spine] in Sp;
      try (injection Sp as <- <-; split; [exact (IHc _ Sl anc fo0)|constructor]).
    destruct (is_chain_op op); [|injection Sp as <- <-; split; [exact (IHc _ Sl anc fo0)|constructor]].
    destruct (spine o pc (FBinary op :: anc) l) as [dl' tail'] eqn:ES. injection Sp as <- <-. cbn [esize] in Sl.
    destruct (IHl ltac:(lia) _ _ _ ES) as [A B]. split; [exact A|]. apply Forall_app. split; [exact B|].
    constructor; [|constructor]. cbn [tp_doc]. refine (IHc _ _ _ _). lia. }
  destruct e as [n k ts|n op a|n l op r|n l op r|n l op r|n name ps b|n items|n a d|n v|n c t el
    |n nl a|n v s b|n c b|n b|n es|n b|n f args|n k rc items|n nm v sl|n nm];
    try (rewrite fmt_args); cbn [fmt esize] in *; try (apply steady_soft).
  - apply steady_map. st.
  - assert (X := IHc a ltac:(lia) (FUnary op :: anc) fo0). unfold rule_unary. cbn [cat].
    match goal with |- context [if ?b then _ else _] => destruct b end; st.
  - pose proof (fun a f => IHc l ltac:(lia) a f) as Xl. pose proof (fun a f => IHc r ltac:(lia) a f) as Xr.
    destruct (classify (t_kind op)).
    + unfold rule_sticky. cbn [cat]. st.
    + unfold rule_assignment. cbn [cat]. destruct (persistent_assignment _ _ _); st.
    + match goal with |- context [let '(dl, tail) := ?f ?a l in _] =>
        change (f a l) with (spine o pc a l); destruct (spine o pc a l) as [dl tail] eqn:ES end.
      destruct (SP l ltac:(lia) _ _ _ ES) as [A B]. unfold rule_chain. cbv zeta.
      assert (C : steady (cat (map chain_piece (tail ++ [ {| tp_op := op; tp_right := r;
                        tp_doc := fmt o pc (FBinary op :: anc) fo0 r; tp_enclosing := None |} ])))).
      { apply steady_map. intros x I. apply steady_piece. apply in_app_or in I. destruct I as [I|[<-|[]]].
        - rewrite Forall_forall in B. exact (B _ I).
        - exact (Xr _ _). }
      apply steady_grouped, steady_cat; [exact A|]. destruct (fo_left fo); st.
    + unfold rule_comparison. cbn [cat]. st.
    + st.
  - pose proof (IHc l ltac:(lia)). pose proof (IHc r ltac:(lia)). unfold rule_sticky. cbn [cat]. st.
  - pose proof (IHc l ltac:(lia)). pose proof (IHc r ltac:(lia)). unfold rule_sticky. cbn [cat]. st.
  - pose proof (IHc ps ltac:(lia)). pose proof (IHc b ltac:(lia)). unfold rule_function. cbn [cat]. destruct (fo_grouped fo); st.
  - apply steady_node; [|st]. unfold rule_params. destruct items as [|x l] eqn:E; [cbn [map cat]; st|]. rewrite <- E in *.
    assert (J : steady (join_params true (map (fun x => (x, fmt o pc (FParamList :: anc) fo0 x)) items))).
    { apply steady_params. intros e d I. apply in_map_iff in I. destruct I as (y & Ey & I). injection Ey as <- <-.
      refine (IHc _ _ _ _). pose proof (esize_In _ _ I). lia. }
    rewrite E in *. cbn [map] in *. cbn [cat]. st.
  - pose proof (IHc a ltac:(lia)). unfold rule_param. destruct d as [d|]; [|st]. pose proof (IHc d ltac:(lia)). cbn [cat]. st.
  - pose proof (IHc v ltac:(lia)). unfold rule_default. cbn [cat]. st.
  - pose proof (IHc c ltac:(lia)). pose proof (IHc t ltac:(lia)). unfold rule_if. cbn [cat].
    destruct el as [el|]; [|st]. pose proof (IHc el ltac:(lia)). st.
  - pose proof (IHc a ltac:(lia)). unfold rule_else. cbn [cat]. st.
  - pose proof (IHc v ltac:(lia)). pose proof (IHc s ltac:(lia)). pose proof (IHc b ltac:(lia)). unfold rule_for. cbn [cat]. st.
  - pose proof (IHc c ltac:(lia)). pose proof (IHc b ltac:(lia)). unfold rule_while. cbn [cat]. st.
  - pose proof (IHc b ltac:(lia)). unfold rule_repeat. cbn [cat]. st.
  - apply steady_node; [|st].
    match goal with |- steady (rule_braced _ _ (rule_expression_list _ ?l) ?i) => assert (L : steady (rule_expression_list false l));
      [|assert (In' : steady i)] end.
    { apply steady_entries. clear SP. assert (K : forall x, In x es -> forall anc fo, steady (fmt o pc anc fo x))
        by (intros x I a f; refine (IHc _ _ _ _); pose proof (esize_In _ _ I); lia).
      clear IHc Sz. induction es as [|y es IHl]; intros e d I; [destruct I|]. destruct I as [E|I].
      - injection E as <- <-. refine (K _ _ _ _). left. reflexivity.
      - refine (IHl _ _ _ I). intros x Ix. exact (K x (or_intror Ix)). }
    { destruct es as [|[| | | | | | | | | | | | | |n' [|x []]| | | | |] []]; try st. refine (IHc _ _ _ _). cbn [esize fold_right]. lia. }
    unfold rule_braced. destruct (variant_of anc n es); cbn [cat]; try st. destruct (n_dang inner); cbn [cat]; st.
  - pose proof (IHc b ltac:(lia)). unfold rule_paren. cbn [cat]. destruct (n_direct _); st.
  - pose proof (IHc f ltac:(lia)). pose proof (IHc args ltac:(lia)). st.
  - apply steady_node; [|st]. apply steady_args. intros i I. apply in_map_iff in I. destruct I as (x & <- & I).
    pose proof (esize_In _ _ I) as Sx. split; [cbn [arg_info ai_doc]; refine (IHc _ _ _ _); lia|].
    cbn [arg_info ai_function]. destruct x; try exact Logic.I. destruct v as [v|]; [|exact Logic.I].
    destruct v; try exact Logic.I. cbn [cat]. cbn [esize] in Sx.
    pose proof (IHc (EFunction n1 name v1 v2) ltac:(cbn [esize]; lia) (FArg :: FArgList :: anc) fo_with_grouped).
    destruct nm as [c|]; [pose proof (IHc c ltac:(lia) (FArg :: FArgList :: anc) fo0)|]; st.
  - unfold argument_fields. destruct nm as [c|], v as [v|]; cbn [cat]; try st;
      try pose proof (IHc c ltac:(lia)); try pose proof (IHc v ltac:(lia)); st.
  - pose proof (IHc nm ltac:(lia)). unfold rule_name_clause. cbn [cat]. st.
Qed.
Theorem root_still r os : lay Expanded (root_doc o pc r) os -> still false os.
Proof.
  intros L. apply lay_glay in L. revert L. change (glay Expanded ?d os -> _) with (glay Expanded d os -> still false os).
  assert (S : steady (root_doc o pc r)); [|exact (S Expanded os)].
  unfold root_doc. cbv zeta. cbn [cat].
  assert (steady (rule_expression_list true (map (fun e => (e, fmt o pc [FRootList] fo0 e)) (r_exprs r)))).
  { apply steady_entries. intros e d I. apply in_map_iff in I. destruct I as (y & Ey & I). injection Ey as <- <-.
    refine (fmt_steady (S (esize y)) y _ _ _). lia. }
  destruct (r_bom r); st.
Qed.
End Rules.
