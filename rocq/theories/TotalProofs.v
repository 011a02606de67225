(** No rule panics. *)
From Coq Require Import List Arith Bool NArith Lia String.
From Verif Require Import Text LineEndingModel SettingsModel SyntaxKind DirectiveModel FmtTree IrModel
  TableModel FmtModel FmtSpec FmtTableSpec FmtProofs FmtTidyProofs FmtFactProofs FmtSkipProofs
  CommentsSpec TotalSpec.
Import ListNotations.

Fixpoint safe (d : doc) : Prop :=
  match d with
  | DPanic => False
  | DCat a b | DBest a b => safe a /\ safe b
  | DIndent d | DGroup _ d | DIfBreaks d => safe d
  | DNil | DWord _ | DSpace | DLine _ | DExpandParent | DSuffix _ _ => True
  end.
Lemma safe_not_panics d : safe d -> ~ panics d.
Proof. induction d; cbn; tauto. Qed.

(** A document that holds no panic has a layout. *)
Lemma safe_lay d : safe d -> forall m, exists os, lay m d os.
Proof.
  induction d as [|a IHa b IHb|w| |l|d IH|e d IH|d IH| |g c|a IHa b IHb|]; cbn [safe lay];
    intros H m; try contradiction; try (eexists; reflexivity).
  - destruct H as [A B]. destruct (IHa A m) as [x X], (IHb B m) as [y Y].
    exists (x ++ y), x, y. auto.
  - destruct l; eexists; reflexivity.
  - exact (IH H m).
  - destruct (IH H Expanded) as [os L]. exists os. destruct e; [exact L|exists Expanded; exact L].
  - destruct m; [eexists; reflexivity|]. exact (IH H Expanded).
  - destruct (IHa (proj1 H) m) as [os L]. exists os, m. left. exact L.
Qed.

Lemma safe_cat ds : safe (cat ds) <-> Forall safe ds.
Proof.
  induction ds as [|d ds IH]; cbn [cat safe]; split; intros H; [constructor|exact I| |].
  - constructor; [apply H|apply IH, H].
  - inversion H; subst. split; [assumption|apply IH; assumption].
Qed.
Ltac scat := cbn [safe]; refine (proj2 (safe_cat _) _);
  repeat (apply Forall_cons || apply Forall_nil); cbn [safe]; try exact I.

Lemma safe_indent d : safe d -> safe (indent d).
Proof. intros H. unfold indent. destruct (is_nil d); [exact I|exact H]. Qed.
Lemma safe_block d : safe d -> safe (block_indent d).
Proof. intros H. unfold block_indent. destruct (is_nil d); cbn; auto. Qed.
Lemma safe_soft d : safe d -> safe (soft_block_indent d).
Proof. intros H. unfold soft_block_indent. destruct (is_nil d); cbn; auto. Qed.
Lemma safe_soft_space d : safe d -> safe (soft_space_or_block_indent d).
Proof. intros H. unfold soft_space_or_block_indent. destruct (is_nil d); cbn; auto. Qed.
Lemma safe_remove d : safe d -> safe (remove_soft d).
Proof.
  induction d as [|a IHa b IHb|w| |l|d IH|e d IH|d IH| |g c|a IHa b IHb|]; cbn [safe remove_soft]; intros H;
    try exact I; try tauto. destruct l; exact I.
Qed.
Lemma safe_maybe b : safe (maybe_space b).
Proof. destruct b; exact I. Qed.
Lemma safe_leading cs : safe (leading_comments cs).
Proof. apply safe_cat, Forall_map, Forall_forall. intros c _. cbn. auto. Qed.
Lemma safe_trailing_from cs : forall n, safe (trailing_from n cs).
Proof. induction cs as [|c cs IH]; intros n; [exact I|]. cbn [trailing_from]. scat. apply IH. Qed.
Lemma safe_trailing cs : safe (trailing_comments cs).
Proof. apply safe_trailing_from. Qed.
Lemma safe_dangling cs : safe (dangling_content cs).
Proof.
  induction cs as [|c [|c' cs] IH]; [exact I|cbn; auto|]. cbn [dangling_content] in *. scat. exact IH.
Qed.
Lemma safe_dangling_block cs : safe (dangling_block cs).
Proof. destruct cs; [exact I|]. apply safe_block, safe_dangling. Qed.
Lemma safe_dangling_soft cs : safe (dangling_soft cs).
Proof. destruct cs; [exact I|]. unfold dangling_soft, group. cbn [safe]. apply safe_soft, safe_dangling. Qed.
Lemma safe_verbatim e : safe (verbatim e).
Proof. unfold verbatim. scat; [apply safe_leading|apply safe_trailing]. Qed.
Lemma safe_node o anc e f g : safe f -> safe g -> safe (node_rule o anc e f g).
Proof.
  intros F G. unfold node_rule. destruct (suppressed o anc e); [apply safe_verbatim|].
  scat; auto using safe_leading, safe_trailing.
Qed.
Lemma safe_node_soft o anc e f : safe f -> safe (node_rule_soft o anc e f).
Proof. intros F. apply safe_node; [exact F|apply safe_dangling_soft]. Qed.
Lemma safe_in_braces d : safe d -> safe (in_braces d).
Proof. intros H. unfold in_braces. scat. apply safe_block, H. Qed.
Lemma safe_in_braces_if d : safe d -> safe (in_braces_if_broken d).
Proof. intros H. unfold in_braces_if_broken. scat. apply safe_soft, H. Qed.
Lemma safe_loop b d : safe d -> safe (loop_body b d).
Proof. intros H. unfold loop_body. destruct (is_braced b); [exact H|apply safe_in_braces, H]. Qed.
Lemma safe_if_body alt b body d : safe d -> safe (if_body alt b body d).
Proof.
  intros H. unfold if_body. destruct (is_braced body); [exact H|]. destruct (_ && _); [exact H|].
  destruct b; [apply safe_in_braces, H|apply safe_in_braces_if, H].
Qed.
Lemma safe_function_body b d : safe d -> safe (function_body b d).
Proof.
  intros H. unfold function_body. destruct (is_braced b); [exact H|].
  destruct (n_newline _); [apply safe_in_braces, H|apply safe_in_braces_if, H].
Qed.
Lemma safe_entries double l : forall first,
  Forall (fun x => safe (snd x)) l -> safe (join_entries double first l).
Proof.
  induction l as [|[e d] l IH]; intros first F; [exact I|]. inversion F; subst. cbn [join_entries].
  scat; [|assumption|apply IH; assumption].
  destruct first; [exact I|]. unfold entry_break. destruct double;
    repeat match goal with |- safe (if ?b then _ else _) => destruct b end; cbn; auto.
Qed.
Lemma safe_params l : forall first, Forall (fun x => safe (snd x)) l -> safe (join_params first l).
Proof.
  induction l as [|[e d] l IH]; intros first F; [exact I|]. inversion F; subst. cbn [join_params].
  scat; [|assumption| |apply IH; assumption].
  - destruct first; exact I.
  - destruct l; exact I.
Qed.

(** Arguments. *)
Definition safe_info (i : ainfo) : Prop :=
  safe (ai_doc i) /\ match ai_function i with Some d => safe d | None => True end.
Lemma safe_arg_doc a : safe_info (fst a) -> safe (arg_doc a).
Proof. intros [H _]. split; [exact H|]. destruct (snd a); exact I. Qed.
Lemma safe_broken_args l : forall first,
  Forall (fun a => safe_info (fst a)) l -> safe (broken_args first l).
Proof.
  induction l as [|a l IH]; intros first F; [exact I|]. inversion F; subst. cbn [broken_args].
  scat; [|apply safe_arg_doc; assumption|apply IH; assumption]. destruct first; exact I.
Qed.
Lemma safe_holes l : Forall (fun a => safe_info (fst a)) l -> safe (holes_doc l).
Proof.
  intros F. apply safe_cat, Forall_map. refine (Forall_impl _ _ F). intros a. apply safe_arg_doc.
Qed.
Lemma safe_broken_out l r rc hs args e :
  safe l -> safe r -> Forall (fun a => safe_info (fst a)) hs ->
  Forall (fun a => safe_info (fst a)) args -> safe (all_broken_out l r rc hs args e).
Proof.
  intros L R H A. unfold all_broken_out, group.
  scat; auto using safe_holes, safe_maybe.
  pose proof (safe_broken_args args true A). destruct (_ && _); auto using safe_soft.
Qed.
Lemma safe_grouped_last only a : safe_info (fst a) -> safe (grouped_last only a).
Proof.
  intros S. unfold grouped_last. pose proof (safe_arg_doc a S). destruct S as [_ S].
  destruct (ai_function (fst a)); [|assumption]. destruct only; [assumption|].
  split; [exact S|]. destruct (snd a); exact I.
Qed.
Lemma safe_join_grouped only w l : (forall d, safe d -> safe (w d)) -> forall first,
  Forall (fun a => safe_info (fst a)) l -> safe (join_grouped only first w l).
Proof.
  intros W. induction l as [|a l IH]; intros first F; [exact I|]. inversion F; subst.
  cbn [join_grouped]. scat; [| |apply IH; assumption].
  - destruct first; exact I.
  - destruct l; [apply W, safe_grouped_last|apply safe_arg_doc]; assumption.
Qed.
Lemma safe_write_grouped l r rc hs args :
  safe l -> safe r -> Forall (fun a => safe_info (fst a)) hs ->
  Forall (fun a => safe_info (fst a)) args -> safe (write_grouped l r rc hs args).
Proof.
  intros L R H A. unfold write_grouped. destruct (last_opt args); [|apply safe_broken_out; assumption].
  cbv zeta. destruct (existsb _ _); [apply safe_broken_out; assumption|].
  destruct (_ && _); [apply safe_broken_out; assumption|].
  assert (V : forall w, (forall d, safe d -> safe (w d)) -> safe
    (cat [ l; holes_doc hs; maybe_space (nonempty hs && nonempty args);
           join_grouped (List.length args =? 1) true w args; r ])).
  { intros w W. scat; auto using safe_holes, safe_maybe, safe_join_grouped. }
  pose proof (safe_broken_out l r rc hs args true L R H A) as M.
  pose proof (V (fun d => d) (fun d D => D)) as V1. pose proof (V (group true) (fun d D => D)) as V2.
  destruct (will_break _); [exact (conj I (conj V2 M))|exact (conj V1 (conj V2 M))].
Qed.
Lemma safe_call_like o n k rc infos :
  Forall safe_info infos -> safe (rule_call_like o n k rc infos).
Proof.
  intros F. unfold rule_call_like.
  assert (W : Forall (fun a => safe_info (fst a)) (with_seps infos)).
  { apply Forall_forall. intros a J. rewrite Forall_forall in F. apply F, in_with_seps, J. }
  destruct infos as [|i0 infos0] eqn:E; [scat; apply safe_dangling_soft|].
  rewrite <- E in *. clear E i0 infos0.
  match goal with |- safe (if ?b then _ else _) => destruct b end.
  { scat. revert W. generalize true as first. generalize (with_seps infos) as l.
    induction l as [|a l IH]; intros first W; [exact I|]. inversion W; subst.
    scat; [|apply safe_arg_doc; assumption|apply IH; assumption]. destruct first; exact I. }
  assert (Wt : Forall (fun a => safe_info (fst a)) (take_holes (with_seps infos))).
  { apply Forall_forall. intros a J. rewrite Forall_forall in W. apply W, in_take_holes, J. }
  assert (Wd : Forall (fun a => safe_info (fst a)) (drop_holes (with_seps infos))).
  { apply Forall_forall. intros a J. rewrite Forall_forall in W. apply W, in_drop_holes', J. }
  cbv zeta.
  repeat match goal with |- safe (if ?b then _ else _) => destruct b end;
    (apply safe_broken_out || apply safe_write_grouped); try assumption; exact I.
Qed.

(** Tables. *)
Lemma safe_raw ps : safe (raw_pieces ps).
Proof. apply safe_cat, Forall_map, Forall_forall. intros [] _; exact I. Qed.
Lemma safe_spaces n : safe (write_spaces n).
Proof. unfold write_spaces. destruct (0 <? n); exact I. Qed.
Lemma safe_cell cs j c : safe_info (ce_arg _ c) ->
  safe (write_cell ainfo own_lead own_trail ai_doc (token_doc tCOMMA) cs j c).
Proof.
  intros [S _]. unfold write_cell. destruct (cell_padding _ _). scat; auto using safe_spaces.
  - destruct (ce_kind _ c); [exact S|]. scat; [apply safe_leading|apply safe_raw|apply safe_trailing].
  - destruct (ce_sep _ c); [apply safe_spaces|exact I].
  - destruct (ce_sep _ c); cbn; auto.
Qed.
Lemma safe_cells cs row : forall j, Forall (fun c => safe_info (ce_arg _ c)) row ->
  safe (write_cells ainfo own_lead own_trail ai_doc (token_doc tCOMMA) cs j row).
Proof.
  induction row as [|c row IH]; intros j F; [exact I|]. inversion F; subst. cbn [write_cells safe].
  split; [apply safe_cell|apply IH]; assumption.
Qed.
Lemma safe_rows cs rs : forall first, Forall (Forall (fun c => safe_info (ce_arg _ c))) rs ->
  safe (write_rows ainfo ai_node own_lead own_trail ai_doc (token_doc tCOMMA) cs first rs).
Proof.
  induction rs as [|row rs IH]; intros first F; [exact I|]. inversion F; subst. cbn [write_rows].
  scat; [|apply safe_cells; assumption|apply IH; assumption].
  destruct first; [exact I|]. destruct row; exact I.
Qed.
Lemma build_safe pc args : forall rs row cs t,
  Forall (fun a => safe_info (fst a)) args ->
  Forall (Forall (fun c => safe_info (ce_arg _ c))) rs -> Forall (fun c => safe_info (ce_arg _ c)) row ->
  build_loop ainfo ai_node (cell_text pc) rs row cs args = Some t ->
  Forall (Forall (fun c => safe_info (ce_arg _ c))) (rows _ t) /\
  Forall (fun a => safe_info (fst a)) (remaining _ t).
Proof.
  induction args as [|[a sep] args IH]; intros rs row cs t F Rs Ro; cbn [build_loop].
  - intros E. injection E as <-. cbn. split; [|constructor].
    destruct (List.length row =? 0); [exact Rs|]. apply Forall_app. auto.
  - inversion F as [|? ? Fa Fr]; subst. destruct (arg_named (ai_node a)).
    + intros E. injection E as <-. cbn. split; [|exact F].
      destruct (List.length row =? 0); [exact Rs|]. apply Forall_app. auto.
    + destruct (parse_kind _ _); [|discriminate]. apply IH; [exact Fr| |].
      * destruct (_ && _); [apply Forall_app; auto|exact Rs].
      * apply Forall_app. split; [destruct (_ && _); [constructor|exact Ro]|]. auto.
Qed.
Lemma safe_table t :
  Forall (Forall (fun c => safe_info (ce_arg _ c))) (rows _ t) ->
  Forall (fun a => safe_info (fst a)) (remaining _ t) ->
  safe (write_table ainfo ai_node own_lead own_trail ai_doc (token_doc tCOMMA)
        (token_doc (l_token KCall)) (token_doc (r_token KCall)) t).
Proof.
  intros R M. unfold write_table, group. scat. apply safe_soft. split; [apply safe_rows, R|].
  unfold write_remaining. destruct (remaining _ t) as [|a l]; [exact I|]. split; [exact I|].
  apply safe_cat, Forall_map. refine (Forall_impl _ _ M). intros [b sep] [S _]. scat; [exact S|].
  destruct sep; exact I.
Qed.
Lemma safe_args o pc self n k rc table infos :
  Forall safe_info infos -> safe (rule_args o pc self n k rc table infos).
Proof.
  intros F. unfold rule_args.
  destruct k, table; try (apply safe_call_like; exact F).
  destruct infos as [|i0 infos0] eqn:E; [apply safe_call_like; constructor|]. rewrite <- E in *.
  destruct (build_table _ _ _ _) as [t|] eqn:B; [|apply safe_verbatim].
  assert (W : Forall (fun a => safe_info (fst a)) (with_seps infos)).
  { apply Forall_forall. intros a J. rewrite Forall_forall in F. apply F, in_with_seps, J. }
  destruct (build_safe pc (with_seps infos) [] [] [] t W ltac:(constructor) ltac:(constructor) B).
  apply safe_table; assumption.
Qed.

(** * Nodes *)

Definition fine (e : expr) : Prop := chain_clear e /\ dangles_well e /\ known_operator e.

Section Fmt.
Variable o : format_options.
Variable pc : doc -> option (list piece).
Notation ok := (everywhere fine).

Definition safes (e : expr) : Prop := forall anc fo, ok e -> safe (fmt o pc anc fo e).

Lemma safe_spine N : (forall x, esize x < N -> safes x) -> forall l, esize l < N -> ok l ->
  match l with EBinary n _ _ _ => n_lead n = [] /\ n_dang n = [] | _ => True end ->
  forall anc dl tail, spine o pc anc l = (dl, tail) ->
  safe dl /\ Forall (fun t => safe (chain_piece t)) tail.
Proof.
  intros IH.
  assert (Stop : forall l anc dl tail, esize l < N -> ok l -> (fmt o pc anc fo0 l, []) = (dl, tail) ->
    safe dl /\ Forall (fun t => safe (chain_piece t)) tail).
  { intros l anc dl tail Sz O E. injection E as <- <-. split; [|constructor]. apply IH; assumption. }
  induction l as [| | n l op r IHl IHr| | | | | | | | | | | | | | | | |] using expr_ind';
    intros Sz O C anc dl tail Sp; try exact (Stop _ _ _ _ Sz O Sp).
  cbn [spine] in Sp. destruct (is_chain_op op) eqn:EC; [|exact (Stop _ _ _ _ Sz O Sp)].
  destruct (spine o pc (FBinary op :: anc) l) as [dl' tail'] eqn:ES. injection Sp as <- <-.
  cbn [esize] in Sz. destruct O as [[Cl _] [Ol Or]].
  assert (C' : match l with EBinary n _ _ _ => n_lead n = [] /\ n_dang n = [] | _ => True end)
    by (destruct l; try exact I; exact Cl).
  destruct (IHl ltac:(lia) Ol C' (FBinary op :: anc) dl' tail' ES) as [V1 V2].
  split; [exact V1|]. apply Forall_app. split; [exact V2|]. constructor; [|constructor].
  destruct C as [L D]. unfold chain_piece. cbn [tp_enclosing tp_op tp_right tp_doc].
  rewrite L, D. scat; [apply IH; [lia|exact Or]|apply safe_trailing].
Qed.

Lemma fmt_safe : forall N e, esize e < N -> safes e.
Proof.
  induction N as [|N IH]; intros e Sz; [lia|]. intros anc fo O.
  assert (Ch : forall x anc' fo', esize x < esize e -> ok x -> safe (fmt o pc anc' fo' x))
    by (intros x anc' fo' Sx Ox; apply IH; [lia|assumption]).
  pose proof (everywhere_self _ _ O) as [Cl [Da Kn]].
  destruct e as [n k ts|n op a|n l op r|n l op r|n l op r|n name ps b|n items|n a d|n v|n c t el
    |n nl a|n v s b|n c b|n b|n es|n b|n f args|n k rc items|n nm v sl|n nm];
    try rewrite fmt_args; try (cbn [fmt]; apply safe_node_soft).
  - apply safe_cat, Forall_map, Forall_forall. intros t _. exact I.
  - destruct O as [_ Oa]. unfold rule_unary.
    assert (X : safe (fmt o pc (FUnary op :: anc) fo0 a)) by (apply Ch; [cbn; lia|exact Oa]).
    scat; [apply safe_maybe|]. destruct (_ && _); [apply safe_soft, X|exact X].
  - destruct O as [_ [Ol Or]].
    assert (X : safe (fmt o pc (FBinary op :: anc) fo0 l)) by (apply Ch; [cbn; lia|exact Ol]).
    assert (Y : forall fo', safe (fmt o pc (FBinary op :: anc) fo' r))
      by (intros fo'; apply Ch; [cbn; lia|exact Or]).
    destruct (classify (t_kind op)) eqn:EC.
    + unfold rule_sticky, group. scat; [exact X|apply Y].
    + unfold rule_assignment, group. scat; [exact X|].
      destruct (persistent_assignment o op r); [apply safe_indent|]; (split; [exact I|apply Y]).
    + change (safe
        (let '(dl, tail) := spine o pc (FBinary op :: anc) l in
         rule_chain o (fo_left fo) dl
           (tail ++ [ {| tp_op := op; tp_right := r;
              tp_doc := fmt o pc (FBinary op :: anc) fo0 r; tp_enclosing := None |} ]))).
      destruct (spine o pc (FBinary op :: anc) l) as [dl tail] eqn:ES.
      assert (C' : match l with EBinary n _ _ _ => n_lead n = [] /\ n_dang n = [] | _ => True end)
        by (destruct l; try exact I; exact Cl).
      destruct (safe_spine N IH l ltac:(cbn in Sz; lia) Ol C' _ _ _ ES) as [V1 V2].
      assert (Z : safe (cat (map chain_piece (tail ++ [ {| tp_op := op; tp_right := r;
              tp_doc := fmt o pc (FBinary op :: anc) fo0 r; tp_enclosing := None |} ])))).
      { apply safe_cat, Forall_map. apply Forall_app. split; [exact V2|].
        constructor; [|constructor]. unfold chain_piece. cbn [tp_enclosing tp_op tp_right tp_doc].
        scat. apply Y. }
      unfold rule_chain, group. cbv zeta. cbn [safe].
      split; [exact V1|]. destruct (fo_left fo); [exact Z|apply safe_indent, Z].
    + unfold rule_comparison, group. scat; [exact X|]. apply safe_indent. split; [exact I|apply Y].
    + exfalso. cbn in Kn. clear -Kn EC. destruct (t_kind op); cbv in EC; try discriminate EC; discriminate Kn.
  - destruct O as [_ [Ol Or]]. unfold rule_sticky, group. scat; (apply Ch; [cbn; lia|assumption]).
  - destruct O as [_ [Ol Or]]. unfold rule_sticky, group. scat; (apply Ch; [cbn; lia|assumption]).
  - destruct O as [_ [Ol Or]]. unfold rule_function, group. scat.
    + destruct (fo_grouped fo); [apply safe_remove|]; (apply Ch; [cbn; lia|assumption]).
    + apply safe_function_body. apply Ch; [cbn; lia|assumption].
  - destruct O as [_ Ol]. cbn [fmt]. apply safe_node; [|exact I].
    assert (F : Forall (fun x => safe (snd x)) (map (fun x => (x, fmt o pc (FParamList :: anc) fo0 x)) items)).
    { apply Forall_map, Forall_forall. intros x Ix. cbn. pose proof (esize_In x items Ix).
      apply Ch; [cbn; lia|]. exact (all_of_In _ _ _ Ol Ix). }
    unfold rule_params. destruct items as [|x items]; cbn [map] in *.
    + scat. apply safe_dangling_soft.
    + unfold group. scat. apply safe_soft, safe_params, F.
  - destruct O as [_ [Oa Od]]. assert (X : safe (fmt o pc (FParam :: anc) fo0 a)) by (apply Ch; [cbn; lia|exact Oa]).
    destruct d as [d|]; unfold rule_param; [|exact X].
    scat; [exact X|]. apply Ch; [cbn; lia|exact Od].
  - destruct O as [_ Ov]. unfold rule_default. scat. apply Ch; [cbn; lia|exact Ov].
  - destruct O as [_ [Oc [Ot Oe]]]. unfold rule_if, group. scat.
    + apply safe_soft, Ch; [cbn; lia|exact Oc].
    + apply safe_if_body, Ch; [cbn; lia|exact Ot].
    + destruct el as [x|]; [|exact I]. split; [exact I|]. apply Ch; [cbn; lia|exact Oe].
  - destruct O as [_ Oa]. unfold rule_else. scat. apply safe_if_body, Ch; [cbn; lia|exact Oa].
  - destruct O as [_ [Ov [Os Ob]]]. unfold rule_for, group. scat; try (apply Ch; [cbn; lia|assumption]).
    apply safe_loop, Ch; [cbn; lia|exact Ob].
  - destruct O as [_ [Oc Ob]]. unfold rule_while, group. scat.
    + apply safe_soft, Ch; [cbn; lia|exact Oc].
    + apply safe_loop, Ch; [cbn; lia|exact Ob].
  - destruct O as [_ Ob]. unfold rule_repeat, group. scat. apply safe_loop, Ch; [cbn; lia|exact Ob].
  - destruct O as [_ Ol]. cbn [fmt]. apply safe_node; [|exact I].
    match goal with |- safe (rule_braced _ _ (rule_expression_list false ?l) ?i) =>
      assert (F : Forall (fun x => safe (snd x)) l); [|assert (G : safe i)] end.
    { assert (E : forall x anc', In x es -> safe (fmt o pc anc' fo0 x)).
      { intros x anc' Ix. pose proof (esize_In x es Ix). apply Ch; [cbn; lia|].
        exact (all_of_In _ _ _ Ol Ix). }
      clear -E. induction es as [|x r IHr]; constructor.
      - apply E. left. reflexivity.
      - apply IHr. intros y anc' Iy. apply E. right. exact Iy. }
    { destruct es as [|[| | | | | | | | | | | | | |m [|x [|]]| | | | |] [|]]; try exact I.
      apply Ch; [cbn; lia|]. apply Ol. }
    unfold rule_braced. destruct (variant_of anc n es) as [| |inner|] eqn:V.
    + scat.
    + scat. apply safe_dangling_block.
    + assert (D : n_dang inner = []).
      { unfold variant_of in V.
        destruct es as [|[| | | | | | | | | | | | | |m [|[m' k' ts'| | | | | | | | | | | | | | | | | | |] [|]]| | | | |] [|]];
          try discriminate V; try (destruct (n_dang n); discriminate V).
        destruct (_ && _); [|discriminate V]. injection V as <-.
        destruct Ol as [[[_ [Dm _]] _] _]. apply Dm. discriminate. }
      rewrite D. unfold group. scat; auto using safe_leading, safe_trailing, safe_soft_space.
    + apply safe_in_braces, safe_entries, F.
  - destruct O as [_ Ob]. unfold rule_paren.
    assert (X : safe (fmt o pc (FParen :: anc) fo0 b)) by (apply Ch; [cbn; lia|exact Ob]).
    scat. destruct (n_direct _); [apply safe_block, X|exact X].
  - destruct O as [_ [Of Oa]]. split; (apply Ch; [cbn; lia|assumption]).
  - destruct O as [_ Oi]. apply safe_node; [|exact I]. apply safe_args.
    apply Forall_map, Forall_forall. intros x Ix. pose proof (all_of_In _ _ _ Oi Ix) as Ox.
    pose proof (esize_In x items Ix) as Sx.
    split; cbn [arg_info ai_doc ai_function]; [apply Ch; [cbn; lia|exact Ox]|].
    destruct x as [| | | | | | | | | | | | | | | | | |nx nm v sl|]; try exact I.
    destruct v as [v|]; [|exact I]. destruct Ox as [_ [On Ov]]. cbn [opt_all] in Ov.
    assert (Sv : esize v < esize (EArgs n k rc items)) by (cbn in *; lia).
    destruct v; try exact I.
    scat; [|apply Ch; assumption]. destruct nm as [c|]; [|exact I]. split; [|exact I].
    apply Ch; [cbn in *; lia|exact On].
  - destruct O as [_ [On Ov]].
    assert (V : forall x, v = Some x -> safe (fmt o pc (FArg :: anc) fo0 x))
      by (intros x ->; apply Ch; [cbn; lia|exact Ov]).
    assert (M : forall x, nm = Some x -> safe (fmt o pc (FArg :: anc) fo0 x))
      by (intros x ->; apply Ch; [cbn; lia|exact On]).
    destruct nm as [c|], v as [x|]; unfold argument_fields; cbn [opt_map]; try (scat; auto); auto.
  - destruct O as [_ On]. unfold rule_name_clause. scat. apply Ch; [cbn; lia|exact On].
Qed.

Lemma root_safe r : all_of ok (r_exprs r) -> safe (root_doc o pc r).
Proof.
  intros A. unfold root_doc. scat; auto using safe_leading, safe_dangling_soft, safe_trailing.
  - destruct (r_bom r); exact I.
  - apply safe_entries, Forall_map, Forall_forall. intros x Ix. cbn.
    eapply fmt_safe; [apply Nat.lt_succ_diag_r|]. exact (all_of_In _ _ _ A Ix).
Qed.
End Fmt.

Lemma everywhere_and P Q e : everywhere P e -> everywhere Q e -> everywhere (fun x => P x /\ Q x) e.
Proof.
  assert (L : forall l, Forall (fun e => everywhere P e -> everywhere Q e ->
              everywhere (fun x => P x /\ Q x) e) l ->
            all_of (everywhere P) l -> all_of (everywhere Q) l ->
            all_of (everywhere (fun x => P x /\ Q x)) l).
  { induction 1; cbn; [auto|]. intros [? ?] [? ?]. auto. }
  assert (M : forall x, Popt (fun e => everywhere P e -> everywhere Q e ->
              everywhere (fun x => P x /\ Q x) e) x ->
            opt_all (everywhere P) x -> opt_all (everywhere Q) x ->
            opt_all (everywhere (fun x => P x /\ Q x)) x).
  { intros [x|]; cbn; auto. }
  induction e using expr_ind'; cbn [everywhere]; intros A B;
    repeat match goal with H : _ /\ _ |- _ => destruct H end;
    repeat match goal with |- _ /\ _ => split end; auto.
Qed.
