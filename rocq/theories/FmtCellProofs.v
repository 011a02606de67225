(** Which cells of a table fit on one line. *)
From Coq Require Import List Arith Bool NArith Lia String.
From Verif Require Import Text LineEndingModel LineEndingSpec SettingsModel SyntaxKind
  DirectiveModel FmtTree IrModel TableModel FmtModel FmtSpec FmtPathSpec FmtTableSpec FmtProofs
  FmtRunProofs FmtListProofs FmtTidyProofs FmtRootProofs FmtFactProofs FmtPathProofs FmtEdgeProofs
  FmtSkipProofs FmtBlankProofs FmtMarkProofs FmtTableProofs FmtRowProofs FmtGridProofs.
Import ListNotations.

(** * Line breaks in tokens *)

Lemma lf_without_cr x : In LF (without_cr_of_crlf x) <-> In LF x.
Proof.
  unfold without_cr_of_crlf. rewrite in_map_iff. split.
  - intros [i [E I]]. apply filter_In in I. destruct I as [I _]. apply in_seq in I.
    rewrite <- E. apply nth_In. exact (proj2 I).
  - intros I. apply (In_nth _ _ 0%N) in I. destruct I as [i [L E]]. exists i. split; [exact E|].
    apply filter_In. split; [apply in_seq; split; [lia|exact L]|]. unfold crlf_at.
    destruct (nth_error x i) as [c|] eqn:F; [|reflexivity].
    apply (nth_error_nth _ _ 0%N) in F. rewrite E in F. subst c.
    destruct (nth_error x (S i)); reflexivity.
Qed.
Lemma lf_same t t' : same_token t t' -> (In LF (t_text t') <-> In LF (t_text t)).
Proof.
  unfold same_token. destruct (kind_eqb (t_kind t) STRING_CONTENT).
  - intros [_ ->]. apply lf_without_cr.
  - intros <-. reflexivity.
Qed.
Lemma has_lf_In x : has_lf x = true <-> In LF x.
Proof.
  unfold has_lf. rewrite existsb_exists. split.
  - intros [c [I E]]. apply N.eqb_eq in E. subst c. exact I.
  - intros I. exists LF. split; [exact I|reflexivity].
Qed.
Lemma norm_breaks t : word_breaks (WTok (norm_token t)) = true <-> In LF (t_text t).
Proof. cbn [word_breaks]. rewrite has_lf_In. apply lf_same, same_norm_token. Qed.

(** * Documents without line breaks *)

Fixpoint calm (d : doc) : Prop :=
  match d with
  | DNil | DExpandParent | DSpace | DIfBreaks _ => True
  | DWord w => word_breaks w = false
  | DLine LSoft | DLine LSoftOrSpace => True
  | DLine LHard | DLine LEmpty | DSuffix _ _ | DPanic => False
  | DCat a b | DBest a b => calm a /\ calm b
  | DIndent d | DGroup _ d => calm d
  end.
Lemma calm_cat ds : calm (cat ds) <-> Forall calm ds.
Proof.
  induction ds as [|d ds IH]; cbn [cat calm]; split; intros H; [constructor|exact I| |].
  - constructor; [apply H|apply IH, H].
  - inversion H; subst. split; [assumption|apply IH; assumption].
Qed.
Ltac ccat := unfold rule_sticky, rule_unary, rule_paren, rule_assignment, rule_comparison,
  rule_name_clause, group; cbn [calm];
  refine (proj2 (calm_cat _) _); repeat (apply Forall_cons || apply Forall_nil); cbn [calm]; try exact I.

Definition plain_op (x : op) : Prop :=
  match x with
  | OStep (SWord w) => word_breaks w = false
  | OStep SSpace => True
  | _ => False
  end.
Lemma calm_lay d : calm d -> forall m, exists os, lay m (remove_soft d) os.
Proof.
  induction d as [|a IHa b IHb|w| |l|d IH|e d IH|d IH| |g c|a IHa b IHb|]; cbn [calm remove_soft lay];
    intros H m; try contradiction; try (eexists; reflexivity).
  - destruct H as [A B]. destruct (IHa A m) as [x X], (IHb B m) as [y Y].
    exists (x ++ y), x, y. auto.
  - destruct l; try contradiction; eexists; reflexivity.
  - exact (IH H m).
  - destruct (IH H Expanded) as [os L]. exists os. destruct e; [exact L|exists Expanded; exact L].
  - destruct (IHa (proj1 H) m) as [os L]. exists os, m. left. exact L.
Qed.
Lemma calm_plain d : calm d -> forall m os, lay m (remove_soft d) os -> Forall plain_op os.
Proof.
  induction d as [|a IHa b IHb|w| |l|d IH|e d IH|d IH| |g c|a IHa b IHb|]; cbn [calm remove_soft lay];
    intros H m os L; try contradiction; try (subst os; repeat constructor; exact H).
  - destruct H as [A B]. destruct L as [x [y [X [Y ->]]]]. apply Forall_app. eauto.
  - destruct l; try contradiction; cbn [lay] in L; subst os; repeat constructor.
  - exact (IH H m os L).
  - destruct e; [exact (IH H Expanded os L)|]. destruct L as [m' L]. exact (IH H m' os L).
  - destruct L as [m' [L|L]]; [exact (IHa (proj1 H) m' os L)|exact (IHb (proj2 H) m' os L)].
Qed.
Lemma plain_run os : Forall plain_op os -> on_one_line (run os).
Proof.
  intros F. rewrite run_exec.
  assert (X : forall s, snd s = [] -> on_one_line (fst (exec s os)) /\ snd (snd (exec s os)) = []).
  { induction F as [|x os Hx F IH]; intros s E; [split; [constructor|exact E]|].
    destruct x as [[w| |e]|g c]; try contradiction; cbn [exec].
    - cbn [print_step]. specialize (IH ({| p_line := match w with WBreak => false | _ => true end;
        p_space := false; p_empty := false |}, snd s) E). destruct (exec _ os) as [o2 s2].
      cbn [fst snd] in *. split; [|apply IH]. apply Forall_app. split; [|apply IH].
      apply Forall_app. split.
      + destruct (p_space (fst s)); repeat constructor.
      + constructor; [|constructor]. destruct w; try exact Hx. discriminate Hx.
    - cbn [print_step]. specialize (IH ({| p_line := p_line (fst s);
        p_space := p_space (fst s) || p_line (fst s); p_empty := p_empty (fst s) |}, snd s) E).
      destruct (exec _ os) as [o2 s2]. cbn [fst snd] in *. exact IH. }
  destruct (X (pstart, []) eq_refl) as [A B]. apply Forall_app. split; [exact A|].
  unfold flush. rewrite B. constructor.
Qed.

Lemma calm_token t : flat_token t -> calm (token_doc t).
Proof.
  intros F. unfold token_doc. cbn [calm]. destruct (word_breaks (WTok (norm_token t))) eqn:E; [|reflexivity].
  apply norm_breaks in E. contradiction.
Qed.
Lemma calm_soft d : calm d -> calm (soft_block_indent d).
Proof. intros H. unfold soft_block_indent. destruct (is_nil d); [exact I|]. cbn. auto. Qed.
Lemma calm_indent d : calm d -> calm (indent d).
Proof. intros H. unfold indent. destruct (is_nil d); [exact I|exact H]. Qed.
Lemma calm_maybe_space b : calm (maybe_space b).
Proof. destruct b; exact I. Qed.
Lemma calm_node o anc e f g :
  suppressed o anc e = false -> n_lead (notes_of e) = [] -> n_trail (notes_of e) = [] ->
  calm f -> calm g -> calm (node_rule o anc e f g).
Proof. intros S L T F G. unfold node_rule. rewrite S, L, T. ccat; assumption. Qed.
Lemma calm_node_soft o anc e f :
  suppressed o anc e = false -> n_lead (notes_of e) = [] -> n_dang (notes_of e) = [] ->
  n_trail (notes_of e) = [] -> calm f -> calm (node_rule_soft o anc e f).
Proof. intros S L D T F. apply calm_node; try assumption. rewrite D. exact I. Qed.

(** Arguments. *)
Definition calm_info (i : ainfo) : Prop := calm (ai_doc i) /\ n_lines (notes_of (ai_node i)) <= 1.
Lemma calm_arg_doc a : calm_info (fst a) -> calm (arg_doc a).
Proof. intros [H _]. split; [exact H|]. destruct (snd a); [reflexivity|exact I]. Qed.
Lemma calm_broken_args l : forall first,
  Forall (fun a => calm_info (fst a)) l -> calm (broken_args first l).
Proof.
  induction l as [|a l IH]; intros first F; [exact I|]. inversion F; subst. cbn [broken_args].
  ccat; [|apply calm_arg_doc; assumption|apply IH; assumption].
  destruct first; [exact I|]. unfold arg_lines. destruct H1 as [_ L]. apply Nat.leb_le in L.
  rewrite L. exact I.
Qed.
Lemma calm_broken_out l r rc hs args e :
  calm l -> calm r -> Forall (fun a => calm_info (fst a)) hs ->
  Forall (fun a => calm_info (fst a)) args -> calm (all_broken_out l r rc hs args e).
Proof.
  intros L R H A. unfold all_broken_out. ccat; [exact L| |apply calm_maybe_space| |exact R].
  - unfold holes_doc. apply calm_cat, Forall_map. refine (Forall_impl _ _ H). intros a. apply calm_arg_doc.
  - pose proof (calm_broken_args args true A). destruct (_ && _); [assumption|apply calm_soft; assumption].
Qed.
Lemma calm_call_like o n k rc infos :
  n_dang n = [] -> Forall calm_info infos ->
  is_test_call (map ai_node infos) = false -> group_last (map ai_node infos) = false ->
  calm (rule_call_like o n k rc infos).
Proof.
  intros D F T G. unfold rule_call_like. rewrite T, G.
  destruct infos as [|i0 infos0] eqn:E.
  { rewrite D. ccat; destruct k; reflexivity. }
  rewrite <- E in *. clear E i0 infos0.
  assert (W : Forall (fun a => calm_info (fst a)) (with_seps infos)).
  { apply Forall_forall. intros a I. rewrite Forall_forall in F. apply F, in_with_seps, I. }
  replace (match k with KCall => false | _ => false end) with false by (destruct k; reflexivity).
  assert (Wt : Forall (fun a => calm_info (fst a)) (take_holes (with_seps infos))).
  { apply Forall_forall. intros a I. rewrite Forall_forall in W. apply W, in_take_holes, I. }
  assert (Wd : Forall (fun a => calm_info (fst a)) (drop_holes (with_seps infos))).
  { apply Forall_forall. intros a I. rewrite Forall_forall in W. apply W, in_drop_holes', I. }
  cbv zeta.
  match goal with |- calm (if ?b then _ else _) => destruct b end;
    [|match goal with |- calm (if ?b then _ else _) => destruct b end];
    apply calm_broken_out; try assumption; destruct k; reflexivity.
Qed.

Section Cells.
Variable o : format_options.
Variable pc : doc -> option (list piece).
Notation one := (everywhere (one_line_node o)).

Lemma one_not_suppressed anc e : one e -> suppressed o anc e = false.
Proof.
  intros H. apply everywhere_self in H. destruct H as [L [_ [_ H]]]. unfold suppressed, has_directive.
  rewrite L. rewrite andb_false_r. cbn [orb]. destruct e; try reflexivity.
  destruct (is_call_args e2 && in_setting (o_skip o) e1) eqn:E; [|reflexivity].
  apply andb_true_iff in E. destruct E as [_ E]. destruct (proj1 H). apply in_setting_listed, E.
Qed.
Lemma one_no_directive d anc e : one e -> has_directive d anc (notes_of e) = false.
Proof.
  intros H. apply everywhere_self in H. destruct H as [L _]. unfold has_directive. rewrite L.
  apply andb_false_r.
Qed.

Definition calm_piece (t : tail_piece) : Prop := calm (chain_piece t).
Definition table_off (fo : fopt) : Prop := fo_table fo <> Some true.
Definition calms (e : expr) : Prop := forall anc fo, table_off fo -> one e -> calm (fmt o pc anc fo e).
Lemma table_off0 : table_off fo0.
Proof. discriminate. Qed.

Lemma calm_spine N : (forall x, esize x < N -> calms x) -> forall l, esize l < N -> one l ->
  forall anc dl tail, spine o pc anc l = (dl, tail) -> calm dl /\ Forall calm_piece tail.
Proof.
  intros IH.
  assert (Stop : forall l anc dl tail, esize l < N -> one l -> (fmt o pc anc fo0 l, []) = (dl, tail) ->
    calm dl /\ Forall calm_piece tail).
  { intros l anc dl tail Sz O E. injection E as <- <-. split; [|constructor].
    apply (IH l Sz anc fo0 table_off0 O). }
  induction l as [| | n l op r IHl IHr| | | | | | | | | | | | | | | | |] using expr_ind';
    intros Sz O anc dl tail Sp; try exact (Stop _ _ _ _ Sz O Sp).
  cbn [spine] in Sp. destruct (is_chain_op op) eqn:EC; [|exact (Stop _ _ _ _ Sz O Sp)].
  destruct (spine o pc (FBinary op :: anc) l) as [dl' tail'] eqn:ES. injection Sp as <- <-.
  cbn [esize] in Sz. destruct O as [[L [D [T [B [Fl [Ln Nl]]]]]] [Ol Or]].
  destruct (IHl ltac:(lia) Ol (FBinary op :: anc) dl' tail' ES) as [V1 V2].
  split; [exact V1|]. apply Forall_app. split; [exact V2|]. constructor; [|constructor].
  cbn [notes_of] in L, D, T. unfold calm_piece, chain_piece. cbn [tp_enclosing tp_op tp_right tp_doc].
  rewrite L, D, T. destruct (1 <? n_lines (notes_of r)) eqn:E; [apply Nat.ltb_lt in E; lia|].
  ccat; [apply calm_token, Fl|]. exact (IH r ltac:(lia) _ _ table_off0 Or).
Qed.

Lemma fmt_calm : forall N e, esize e < N -> calms e.
Proof.
  induction N as [|N IH]; intros e Sz; [lia|]. intros anc fo T O.
  pose proof (one_not_suppressed anc e O) as S.
  assert (Ch : forall x anc' fo', esize x < esize e -> table_off fo' -> one x -> calm (fmt o pc anc' fo' x))
    by (intros x anc' fo' Sx T' Ox; apply IH; [lia|assumption|assumption]).
  pose proof (everywhere_self _ _ O) as [L [D [Tr H]]].
  destruct e as [n k ts|n op a|n l op r|n l op r|n l op r|n name ps b|n items|n a d|n v|n c t el
    |n nl a|n v s b|n c b|n b|n es|n b|n f args|n k rc items|n nm v sl|n nm];
    try contradiction;
    try change (fmt o pc anc fo (EArgs n k rc items)) with
      (node_rule o anc (EArgs n k rc items)
        (rule_args o pc (EArgs n k rc items) n k rc
           (match fo_table fo with Some t => t | None => false end)
           (map (arg_info o pc anc) items)) DNil);
    cbn [fmt];
    try (apply calm_node_soft; try assumption).
  - apply calm_cat, Forall_map. refine (Forall_impl _ _ H). intros t. apply calm_token.
  - destruct O as [_ Oa].
    assert (X : calm (fmt o pc (FUnary op :: anc) fo0 a)) by (apply Ch; [cbn; lia|apply table_off0|exact Oa]).
    ccat; [apply calm_token, H|apply calm_maybe_space|].
    destruct (_ && _); [apply calm_soft, X|exact X].
  - destruct O as [_ [Ol Or]]. destruct H as [B [Fl [Ln Nl]]].
    assert (X : calm (fmt o pc (FBinary op :: anc) fo0 l)) by (apply Ch; [cbn; lia|apply table_off0|exact Ol]).
    assert (Y : calm (fmt o pc (FBinary op :: anc) fo0 r)) by (apply Ch; [cbn; lia|apply table_off0|exact Or]).
    destruct (classify (t_kind op)) eqn:EC.
    + ccat; [exact X|apply calm_token, Fl|exact Y].
    + assert (P : persistent_assignment o op r = false)
        by (unfold persistent_assignment; rewrite Nl; apply andb_false_r).
      assert (Fr : flat_token (restyle o anc op)).
      { unfold restyle. destruct (kind_eqb (t_kind op) EQUAL);
          [destruct (o_assignment_style o)|destruct (kind_eqb (t_kind op) ASSIGN);
            [destruct (o_assignment_style o); [|destruct (can_normalize_to_equal anc)|]|]];
          try exact Fl; cbv; intros Z; repeat destruct Z as [Z|Z]; try discriminate; contradiction. }
      ccat; [exact X|apply calm_token, Fr|]. rewrite P. split; [exact I|].
      apply Ch; [cbn; lia| |exact Or]. unfold rhs_options. rewrite P. cbn [andb].
      destruct r; try discriminate. unfold has_directive. cbn [notes_of] in L. rewrite L.
      rewrite andb_false_r. discriminate.
    + change (calm
        (let '(dl, tail) := spine o pc (FBinary op :: anc) l in
         rule_chain o (fo_left fo) dl
           (tail ++ [ {| tp_op := op; tp_right := r;
              tp_doc := fmt o pc (FBinary op :: anc) fo0 r; tp_enclosing := None |} ]))).
      destruct (spine o pc (FBinary op :: anc) l) as [dl tail] eqn:ES.
      destruct (calm_spine N IH l ltac:(cbn in Sz; lia) Ol _ _ _ ES) as [V1 V2].
      assert (Z : calm (cat (map chain_piece (tail ++ [ {| tp_op := op; tp_right := r;
              tp_doc := fmt o pc (FBinary op :: anc) fo0 r; tp_enclosing := None |} ])))).
      { apply calm_cat, Forall_map. apply Forall_app. split; [exact V2|].
        constructor; [|constructor]. unfold chain_piece. cbn [tp_enclosing tp_op tp_right tp_doc].
        destruct (1 <? n_lines (notes_of r)) eqn:E; [apply Nat.ltb_lt in E; lia|].
        ccat; [apply calm_token, Fl|exact Y]. }
      split; [exact V1|]. destruct (fo_left fo); [exact Z|apply calm_indent, Z].
    + ccat; [exact X|apply calm_token, Fl|]. apply calm_indent. split; [exact I|exact Y].
    + exfalso. clear -B EC. destruct (t_kind op); cbv in EC; try discriminate EC; discriminate B.
  - destruct O as [_ [Ol Or]]. ccat; [|apply calm_token, H|]; (apply Ch; [cbn; lia|apply table_off0|assumption]).
  - destruct O as [_ [Ol Or]]. ccat; [|apply calm_token, H|]; (apply Ch; [cbn; lia|apply table_off0|assumption]).
  - destruct O as [_ Ob]. ccat; [reflexivity| |reflexivity]. rewrite H.
    apply Ch; [cbn; lia|apply table_off0|exact Ob].
  - destruct O as [_ [Of Oa]]. split; (apply Ch; [cbn; lia| |assumption]); [apply table_off0|].
    unfold table_off, call_options. cbn [fo_table fo_with_table].
    destruct (is_call_args args); [|discriminate]. cbn [andb].
    unfold table_off in T. destruct (fo_table fo) as [[]|]; [congruence|discriminate|].
    pose proof (one_no_directive DTable anc (ECall n f args)) as Z. cbn [notes_of] in Z, L.
    unfold has_directive. rewrite L, andb_false_r. cbn [orb].
    destruct (in_setting (o_table o) f) eqn:E; [|discriminate].
    destruct (proj2 H). apply in_setting_listed, E.
  - destruct O as [_ Oi]. apply calm_node; try assumption; [|exact I].
    assert (Ti : match fo_table fo with Some t => t | None => false end = false)
      by (unfold table_off in T; destruct (fo_table fo) as [[]|]; congruence).
    rewrite Ti. replace (rule_args o pc (EArgs n k rc items) n k rc false (map (arg_info o pc anc) items))
      with (rule_call_like o n k rc (map (arg_info o pc anc) items))
      by (unfold rule_args; destruct k; reflexivity).
    assert (Nodes : map ai_node (map (arg_info o pc anc) items) = items)
      by (rewrite map_map; apply map_id).
    apply calm_call_like; [exact D| | |]; rewrite ?Nodes.
    + apply Forall_map, Forall_forall. intros x Ix. pose proof (all_of_In _ _ _ Oi Ix) as Ox.
      split; cbn [arg_info ai_doc ai_node].
      * apply Ch; [pose proof (esize_In x items Ix); cbn; lia|apply table_off0|exact Ox].
      * exact (proj1 (Forall_forall _ _) H x Ix).
    + unfold is_test_call. destruct items as [|a [|b [|]]]; try reflexivity.
      destruct Oi as [_ [Ob _]]. destruct (arg_value a) as [x|]; [|reflexivity].
      destruct b; try reflexivity. cbn [arg_value]. destruct v as [y|]; [|reflexivity].
      destruct Ob as [_ [_ Oy]]. cbn [opt_all] in Oy. apply everywhere_self in Oy.
      destruct Oy as [_ [_ [_ Oy]]]. destruct y; try contradiction; apply andb_false_r.
    + unfold group_last. destruct (last_opt items) as [x|] eqn:E; [|reflexivity].
      assert (Ix : In x items) by (clear -E; revert E; induction items as [|a [|b l] IHl]; intros E;
        [discriminate|injection E as ->; left; reflexivity|right; exact (IHl E)]).
      pose proof (all_of_In _ _ _ Oi Ix) as Ox. destruct x; try reflexivity.
      destruct Ox as [_ [_ Oy]]. destruct v as [y|]; [|apply andb_false_r].
      cbn [opt_all] in Oy. apply everywhere_self in Oy.
      destruct Oy as [_ [_ [_ Oy]]]. destruct y; try contradiction; apply andb_false_r.
  - destruct O as [_ [On Ov]].
    assert (V : forall x, v = Some x -> calm (fmt o pc (FArg :: anc) fo0 x))
      by (intros x ->; apply Ch; [cbn; lia|apply table_off0|exact Ov]).
    assert (M : forall x, nm = Some x -> calm (fmt o pc (FArg :: anc) fo0 x))
      by (intros x ->; apply Ch; [cbn; lia|apply table_off0|exact On]).
    destruct nm as [c|], v as [x|]; unfold argument_fields; cbn [opt_map]; try (ccat; auto); auto.
  - destruct O as [_ On]. ccat; [|reflexivity]. apply Ch; [cbn; lia|apply table_off0|exact On].
Qed.

Lemma calm_error d : calm d -> without_error (remove_soft d).
Proof.
  induction d as [|a IHa b IHb|w| |l|d IH|e d IH|d IH| |g c|a IHa b IHb|]; cbn [calm remove_soft without_error];
    try tauto.
  destruct l; cbn; tauto.
Qed.

Hypothesis Cp : cell_printer pc.
(** A cell that fits on one line can be printed. *)
Lemma parse_kind_some w ps : parse_kind w (Some ps) <> None.
Proof.
  unfold parse_kind. destruct w as [e|]; [|discriminate].
  destruct e; try (destruct (literal_kind _); discriminate).
  destruct (_ || _); [|discriminate]. destruct (literal_kind e) as [[]|]; discriminate.
Qed.
Lemma fitting_printable x : cells_answered pc -> fitting_cell o x -> printable o pc [] x.
Proof.
  intros An F. unfold printable.
  assert (C : calm (ai_fields (arg_info o pc [] x))).
  { destruct x; try contradiction. destruct nm; [contradiction|]. cbn [arg_info ai_fields argument_fields].
    destruct v as [w|]; [|exact I]. exact (fmt_calm _ w (Nat.lt_succ_diag_r _) _ _ table_off0 F). }
  destruct (cell_text pc (arg_info o pc [] x)) as [ps|] eqn:E; [apply parse_kind_some|].
  exfalso. unfold cell_text in E.
  destruct (pc (remove_soft (ai_fields (arg_info o pc [] x)))) as [ps|] eqn:P;
    [|exact (An _ (calm_error _ C) P)].
  destruct (existsb _ ps) eqn:X; [|discriminate].
  apply existsb_exists in X. destruct X as [q [Iq Hq]]. apply Cp in P. destruct P as [os [L ->]].
  pose proof (plain_run _ (calm_plain _ C _ _ L)) as One.
  pose proof (proj1 (Forall_forall _ _) One q Iq) as H. destruct q as [w| |]; cbn in *; congruence.
Qed.

(** * Cells with a line break *)

Lemma word_line pre w e post :
  w <> WBreak -> In PNewline (run (pre ++ OStep (SWord w) :: OStep (SLine e) :: post)).
Proof.
  intros Nw. rewrite run_exec. apply in_or_app. left. rewrite exec_app.
  destruct (exec (pstart, []) pre) as [o1 s1]. cbn [exec].
  destruct (print_step (fst s1) (SWord w)) as [o2 s2] eqn:E2.
  assert (S2 : s2 = on_line_st) by (cbn [print_step] in E2; injection E2 as _ <-; destruct w; try reflexivity; congruence).
  subst s2. destruct (held_on_line (snd s1)) as [a [Ha _]].
  unfold flush. cbn [fst snd]. rewrite Ha. cbn [print_step on_line_st p_line].
  destruct (e && negb false); destruct (exec _ post) as [o4 s4]; cbn [fst];
    apply in_or_app; right; apply in_or_app; right; apply in_or_app; right; cbn; auto.
Qed.

Lemma braces_break anc p fo n es m os :
  agree anc p -> suppressed o anc (EBraced n es) = false -> es <> [] -> ~ curly_curly es ->
  shaped (EBraced n es) -> glay m (fmt o pc anc fo (EBraced n es)) os ->
  exists pre post, os = pre ++ OStep (SWord (WTok tLCURLY)) :: OStep (SLine false) :: post.
Proof.
  intros A ES Ne NC Shs G. cbn [fmt] in G. unfold node_rule in G. rewrite ES in G.
  split_lay G. split_lay G. split_lay G. split_lay G. lay_nil G.
  cbn [glay] in A2. subst x1. rewrite app_nil_r. cbn [app].
  assert (EV : variant_of anc n es = BNotEmpty).
  { unfold variant_of. destruct es as [|e0 [|e1 es]]; [contradiction| |].
    - destruct e0 as [| | | | | | | | | | | | | |n0 es0| | | | |]; try reflexivity.
      destruct es0 as [|[n1 k1 ts1| | | | | | | | | | | | | | | | | | |] [|? ?]]; try reflexivity.
      destruct NC. exists n0, n1, k1, ts1. reflexivity.
    - destruct e0 as [| | | | | | | | | | | | | |n0 es0| | | | |]; try reflexivity.
      destruct es0 as [|[] [|? ?]]; reflexivity. }
  rewrite EV in A1. unfold rule_braced, in_braces in A1.
  destruct es as [|e0 es]; [contradiction|].
  destruct Shs as [[S1 S2] _].
  assert (So : solid (fmt o pc (FBracedList (is_last es) :: anc) fo0 e0) = true).
  { apply (lays_solid o pc (p_stmt (negb (is_last es))) e0 _ S2); [congruence|].
    apply lays0; [reflexivity| |congruence]. repeat split; destruct es; reflexivity. }
  set (docs := (fix go (l : list expr) : list (expr * doc) :=
         match l with
         | [] => []
         | x :: r => (x, fmt o pc (FBracedList (is_last r) :: anc) fo0 x) :: go r
         end) es) in *.
  split_lay A1. split_lay A1. split_lay A1. lay_nil A1. rewrite app_nil_r.
  unfold block_indent in A4.
  match type of A4 with glay _ (if is_nil ?d then _ else _) _ => assert (EN : is_nil d = false) end.
  { apply solid_not_nil. unfold rule_expression_list. cbn [join_entries cat solid]. rewrite So.
    reflexivity. }
  rewrite EN in A4.
  destruct A4 as [y1 [y2 [[z1 [z2 [Z1 [Z2 ->]]]] [[z3 [z4 [Z3 [Z4 ->]]]] ->]]]].
  cbn [glay] in Z1. cbn [glay token_doc] in A2. subst x1 z1.
  eexists x, _. cbn [app]. rewrite <- ?app_assoc. cbn [app]. reflexivity.
Qed.

(** A cell with a line break cannot be printed. *)
Lemma break_unprintable n v sl :
  sort_of v = SoExpr -> shaped v -> has_break o v -> ~ printable o pc [] (EArg n None (Some v) sl).
Proof.
  intros So Sh [p [y [V [NS B]]]] P. unfold printable in P. cbn [arg_value] in P.
  destruct (cell_text pc (arg_info o pc [] (EArg n None (Some v) sl))) as [ps|] eqn:E.
  - unfold cell_text in E. cbn [arg_info ai_fields argument_fields] in E.
    destruct (pc _) as [ps'|] eqn:E'; [|discriminate]. apply Cp in E'. destruct E' as [os [L ->]].
    destruct (existsb _ (run os)) eqn:X; [discriminate|]. clear E P ps.
    assert (Q : forall q, In q (run os) -> match q with PNewline => true | PWord w => word_breaks w | PSpace => false end = false).
    { intros q Iq. destruct (match q with PNewline => true | PWord w => word_breaks w | PSpace => false end) eqn:Z;
        [|reflexivity]. rewrite <- X. symmetry. apply existsb_exists. exists q. split; [exact Iq|exact Z]. }
    assert (La : lays o pc p_plain v (fmt o pc [FArg; FArgList] fo0 v))
      by (apply lays0; [reflexivity|apply agree_arg|congruence]).
    pose proof (visited_softly o pc _ _ _ _ V Sh ltac:(congruence) _ La) as In1.
    apply inall_remove in In1.
    2:{ intros d' [L'|[d1 [L' ->]]]; right; [exists d'; auto|exists d1; split; [exact L'|apply remove_soft_idem]]. }
    destruct (inall_lay _ _ In1 _ _ L) as [d' [m' [pre [os' [post [S [L' ->]]]]]]].
    assert (G : exists anc fo m, agree anc p /\ glay m (fmt o pc anc fo y) os').
    { destruct S as [[anc [fo [A [F [_ ->]]]]]|[d0 [[anc [fo [A [F [_ ->]]]]] ->]]].
      - exists anc, fo, m'. split; [exact A|apply lay_glay, L'].
      - exists anc, fo, Flat. split; [exact A|apply (glay_remove_soft _ m'), lay_glay, L']. }
    destruct G as [anc [fo [m [A G]]]].
    assert (Shy : shaped y).
    { clear -V Sh So. assert (Sk : sort_of v = SoArg -> skip_asked o p_plain v) by congruence.
      revert Sh Sk. clear So. induction V as [|p e p' x p'' y N H V IH]; intros Sh Sk; [exact Sh|].
      destruct (part_shaped o p e p' x H Sh) as [Shx Skx]. auto. }
    assert (ES : suppressed o anc y = false).
    { destruct (suppressed o anc y) eqn:ES; [|reflexivity]. destruct NS.
      exact (suppressed_asked o anc y p (proj1 (proj2 A)) ES). }
    destruct y as [n0 k ts| | | | | | | | | | | | | |n0 es| | | | |]; try contradiction.
    + destruct B as [_ [_ B]]. apply Exists_exists in B. destruct B as [t [It Lf]].
      assert (In2 : In (OStep (SWord (WTok (norm_token t)))) os').
      { cbn [fmt] in G. unfold node_rule_soft, node_rule in G. rewrite ES in G.
        split_lay G. split_lay G. apply in_or_app. right. apply in_or_app. left.
        clear -A1 It. revert x0 A1. induction ts as [|u ts IH]; intros os A1; [destruct It|].
        destruct A1 as [a [b [X [Y ->]]]]. apply in_or_app. destruct It as [->|It].
        - left. cbn [glay token_doc] in X. subst a. left. reflexivity.
        - right. exact (IH It _ Y). }
      pose proof (Q (PWord (WTok (norm_token t)))) as Z. cbv beta iota in Z.
      rewrite (proj2 (norm_breaks t) Lf) in Z. discriminate Z.
      apply run_word; [discriminate|]. apply in_or_app. right. apply in_or_app. left. exact In2.
    + destruct B as [Ne NC].
      destruct (braces_break anc p fo n0 es m os' A ES Ne NC Shy G) as [a [b ->]].
      specialize (Q PNewline). discriminate Q.
      pose proof (word_line (pre ++ a) (WTok tLCURLY) false (b ++ post) ltac:(discriminate)) as Z.
      rewrite <- !app_assoc in Z. cbn [app] in Z. rewrite <- !app_assoc. exact Z.
  - assert (Lk : forall x, (exists p', visited o p' x p y) -> literal_kind x = None).
    { intros x [p' Vx]. destruct x as [n0 k ts| | | | | | | | | | | | | | | | | | |]; try reflexivity.
      inversion Vx as [|? ? ? ? ? ? ? Pt]; subst.
      - destruct B as [B1 [B2 _]]. apply kind_eqb_neq in B1, B2.
        cbn [literal_kind]. rewrite B1, B2. destruct ts as [|? []]; reflexivity.
      - inversion Pt. }
    unfold parse_kind in P.
    destruct v as [n0 k ts|n0 op a| | | | | | | | | | | | | | | | | |];
      try (rewrite (Lk _ (ex_intro _ _ V)) in P; congruence).
    assert (La : literal_kind a = None).
    { inversion V as [|? ? ? ? ? ? ? Pt Va]; subst; [contradiction|].
      inversion Pt; subst. apply Lk. eauto. }
    rewrite La in P. destruct (_ || _); congruence.
Qed.

(** * Files *)

Lemma table_or_copy r out args cells named :
  root_shaped r -> prints (root_doc o pc r) out -> stored (o_table o) ->
  table_call o r args cells named -> cell_shapes (followed (some named) cells) ->
  copied_in args out \/
  exists rs, lines_of (followed (some named) cells) rs /\ table_in o rs out.
Proof.
  intros Sh P St [p [n [f [n' [rc [items [-> [In [Sk [Ta [Ce [Ne Nh]]]]]]]]]]]] Cs.
  destruct (table_shown o pc Cp r out p n f n' rc items cells named Sh P St In Sk Ta Ce Ne)
    as [[_ H]|[_ H]]; [left; exact H|right; exact (H Nh Cs)].
Qed.
Lemma table_fits r out args cells named :
  cells_answered pc -> root_shaped r -> prints (root_doc o pc r) out -> stored (o_table o) ->
  table_call o r args cells named -> cell_shapes (followed (some named) cells) ->
  Forall (fitting_cell o) cells ->
  exists rs, lines_of (followed (some named) cells) rs /\ table_in o rs out.
Proof.
  intros An Sh P St [p [n [f [n' [rc [items [-> [In [Sk [Ta [Ce [Ne Nh]]]]]]]]]]]] Cs Fi.
  destruct (table_shown o pc Cp r out p n f n' rc items cells named Sh P St In Sk Ta Ce Ne)
    as [[H _]|[_ H]]; [|exact (H Nh Cs)].
  exfalso. apply Exists_exists in H. destruct H as [x [Ix H]]. apply H, fitting_printable; [exact An|].
  exact (proj1 (Forall_forall _ _) Fi x Ix).
Qed.
Lemma table_breaks r out args cells named :
  root_shaped r -> prints (root_doc o pc r) out -> stored (o_table o) ->
  table_call o r args cells named ->
  Exists (breaking_cell o) cells ->
  copied_in args out.
Proof.
  intros Sh P St [p [n [f [n' [rc [items [-> [In [Sk [Ta [Ce [Ne Nh]]]]]]]]]]]] Ex.
  destruct (table_shown o pc Cp r out p n f n' rc items cells named Sh P St In Sk Ta Ce Ne)
    as [[_ H]|[H _]]; [exact H|]. exfalso.
  apply Exists_exists in Ex. destruct Ex as [x [Ix [n1 [w [sl [-> Hb]]]]]].
  pose proof (proj1 (Forall_forall _ _) H _ Ix) as Px.
  pose proof (args_in_file _ _ _ _ _ _ In Sk Ta) as Ia.
  assert (Shi : all_of (fun x => sort_of x = SoArg /\ shaped x) items)
    by exact (proj1 (in_file_shaped o r _ _ Sh Ia)).
  destruct Ce as [-> _]. destruct (all_of_In _ _ _ Shi (in_or_app _ _ _ (or_introl Ix))) as [_ Sx].
  cbn [shaped opt_all] in Sx. destruct Sx as [_ [S1 S2]].
  exact (break_unprintable n1 w sl S1 S2 Hb Px).
Qed.
End Cells.
