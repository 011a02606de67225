(** Copied nodes: skipped ones are copied, others are not. *)
From Coq Require Import List Arith Bool NArith Lia.
From Verif Require Import Text LineEndingModel LineEndingSpec SettingsModel SettingsProofs
  SyntaxKind DirectiveModel FmtTree IrModel TableModel FmtModel FmtSpec FmtPathSpec FmtProofs
  FmtRunProofs FmtListProofs FmtTidyProofs FmtPathProofs.
Import ListNotations.

(** * Words of a layout and of its printed form *)

Lemma unsuffix_word w os : forall held,
  In (SWord w) (unsuffix held os) ->
  In (OStep (SWord w)) os \/ exists c, w = WComment c.
Proof.
  assert (Hs : forall held, In (SWord w) (held_steps held) -> exists c, w = WComment c).
  { induction held as [|[g c] held IH]; intros H; [destruct H|]. cbn [held_steps flat_map app] in H.
    destruct H as [H|[H|H]]; [destruct g; discriminate| |exact (IH H)].
    injection H as <-. exists c. reflexivity. }
  induction os as [|x os IH]; intros held H; [right; exact (Hs held H)|].
  destruct x as [s|g c].
  - destruct s as [w'| |e]; cbn [unsuffix] in H.
    + destruct H as [H|H]; [left; left; congruence|].
      destruct (IH _ H) as [X|X]; [left; right; exact X|right; exact X].
    + destruct H as [H|H]; [discriminate|].
      destruct (IH _ H) as [X|X]; [left; right; exact X|right; exact X].
    + apply in_app_or in H. destruct H as [H|[H|H]]; [right; exact (Hs held H)|discriminate|].
      destruct (IH _ H) as [X|X]; [left; right; exact X|right; exact X].
  - cbn [unsuffix] in H. destruct (IH _ H) as [X|X]; [left; right; exact X|right; exact X].
Qed.
Lemma word_unsuffix w os : forall held,
  In (OStep (SWord w)) os -> In (SWord w) (unsuffix held os).
Proof.
  induction os as [|x os IH]; intros held H; [destruct H|].
  destruct x as [s|g c].
  - destruct s as [w'| |e]; cbn [unsuffix].
    + destruct H as [H|H]; [left; congruence|right; exact (IH _ H)].
    + destruct H as [H|H]; [discriminate|right; exact (IH _ H)].
    + destruct H as [H|H]; [discriminate|]. apply in_or_app. right. right. exact (IH _ H).
  - destruct H as [H|H]; [discriminate|exact (IH _ H)].
Qed.
Lemma print_word w ss : forall st,
  In (PWord w) (fst (print_steps st ss)) -> In (SWord w) ss.
Proof.
  induction ss as [|s ss IH]; intros st H; [destruct H|]. cbn [print_steps] in H.
  destruct (print_step st s) as [o1 st1] eqn:E1. destruct (print_steps st1 ss) as [o2 st2] eqn:E2.
  cbn [fst] in H. apply in_app_or in H. destruct H as [H|H].
  - left. destruct s as [w'| |e]; cbn [print_step] in E1.
    + injection E1 as <- _. apply in_app_or in H.
      destruct H as [H|[H|[]]]; [destruct (p_space st); [destruct H as [H|[]]; discriminate|destruct H]|].
      destruct w'; try discriminate; congruence.
    + injection E1 as <- _. destruct H.
    + destruct (p_line st), e, (p_empty st); cbn in E1; injection E1 as <- _; cbn in H;
        repeat (destruct H as [H|H]; [discriminate|]); destruct H.
  - right. apply (IH st1). rewrite E2. exact H.
Qed.
Lemma word_print w ss : w <> WBreak -> forall st,
  In (SWord w) ss -> In (PWord w) (fst (print_steps st ss)).
Proof.
  intros N. induction ss as [|s ss IH]; intros st H; [destruct H|]. cbn [print_steps].
  destruct (print_step st s) as [o1 st1] eqn:E1. specialize (IH st1).
  destruct (print_steps st1 ss) as [o2 st2]. cbn [fst] in *. apply in_or_app.
  destruct H as [->|H]; [left|right; exact (IH H)].
  cbn [print_step] in E1. injection E1 as <- _. apply in_or_app. right.
  destruct w; try (left; reflexivity). contradiction.
Qed.
Lemma run_word w os : w <> WBreak -> In (OStep (SWord w)) os -> In (PWord w) (run os).
Proof. intros N H. apply (word_print w _ N), word_unsuffix, H. Qed.
Lemma word_run w os :
  In (PWord w) (run os) -> In (OStep (SWord w)) os \/ exists c, w = WComment c.
Proof. intros H. exact (unsuffix_word w os [] (print_word w _ _ H)). Qed.

(** * Copied nodes of a document *)

Section Verbs.
Variable Q : expr -> Prop.
Fixpoint vd (d : doc) : Prop :=
  match d with
  | DWord (WVerb e) => Q e
  | DCat a b | DBest a b => vd a /\ vd b
  | DIndent d | DGroup _ d | DIfBreaks d => vd d
  | _ => True
  end.
Definition vop (x : op) : Prop :=
  match x with OStep (SWord (WVerb e)) => Q e | _ => True end.

Lemma vd_lay d : forall m os, vd d -> glay m d os -> Forall vop os.
Proof.
  induction d as [|a IHa b IHb|w| |l|d IH|e d IH|d IH| |g c|a IHa b IHb|]; intros m os V L;
    cbn [glay] in L.
  - subst. constructor.
  - destruct L as [x [y [A [B ->]]]]. destruct V as [Va Vb]. apply Forall_app. eauto.
  - subst. constructor; [|constructor]. destruct w; try exact I. exact V.
  - subst. repeat constructor.
  - destruct l; [destruct m|destruct m| |]; subst; repeat constructor.
  - exact (IH m os V L).
  - destruct L as [m' L]. exact (IH m' os V L).
  - destruct m; [subst; constructor|exact (IH Expanded os V L)].
  - subst. constructor.
  - subst. repeat constructor.
  - destruct V as [Va Vb]. destruct L as [m' [L|L]]; eauto.
  - contradiction.
Qed.
Lemma vd_cat ds : vd (cat ds) <-> Forall vd ds.
Proof.
  induction ds as [|d ds IH]; cbn [cat vd]; split; intros H; [constructor|exact I| |].
  - constructor; [apply H|apply IH, H].
  - inversion H; subst. split; [assumption|apply IH; assumption].
Qed.
Ltac vcat := apply vd_cat; repeat (apply Forall_cons || apply Forall_nil); try exact I.
Lemma vd_remove d : vd d -> vd (remove_soft d).
Proof.
  induction d as [|a IHa b IHb|w| |l|d IH|e d IH|d IH| |g c|a IHa b IHb|]; cbn [remove_soft vd];
    try (intros [A B]; split; auto); try tauto. destruct l; intros _; exact I.
Qed.
Lemma vd_token t : vd (token_doc t).
Proof. exact I. Qed.
Lemma vd_leading cs : vd (leading_comments cs).
Proof. unfold leading_comments. induction cs; cbn; tauto. Qed.
Lemma vd_trailing cs : forall k, vd (trailing_from k cs).
Proof. induction cs; intros k; cbn [trailing_from cat vd]; auto. Qed.
Lemma vd_dangling_content cs : vd (dangling_content cs).
Proof. induction cs as [|c [|c' cs] IH]; cbn [dangling_content cat vd]; auto. Qed.
Lemma vd_indent d : vd d -> vd (indent d).
Proof. intros H. unfold indent. destruct (is_nil d); [exact I|exact H]. Qed.
Lemma vd_between l d : vd d ->
  vd (if is_nil d then DNil else cat [DIndent (DCat (DLine l) d); DLine l]).
Proof. intros H. destruct (is_nil d); [exact I|]. cbn. auto. Qed.
Lemma vd_block d : vd d -> vd (block_indent d).
Proof. apply vd_between. Qed.
Lemma vd_soft d : vd d -> vd (soft_block_indent d).
Proof. apply vd_between. Qed.
Lemma vd_dangling cs : vd (dangling_soft cs).
Proof. destruct cs; [exact I|]. apply vd_soft, vd_dangling_content. Qed.
Lemma vd_dangling_block cs : vd (dangling_block cs).
Proof. destruct cs; [exact I|]. apply vd_block, vd_dangling_content. Qed.
Lemma vd_verbatim e : Q e -> vd (verbatim e).
Proof.
  intros H. vcat; [apply vd_leading|exact H|apply vd_trailing].
Qed.
Lemma vd_node o anc e f g :
  (suppressed o anc e = true -> Q e) -> vd f -> vd g -> vd (node_rule o anc e f g).
Proof.
  intros S F G. unfold node_rule. destruct (suppressed o anc e); [apply vd_verbatim; auto|].
  vcat; [apply vd_leading|exact F|exact G|apply vd_trailing].
Qed.
Lemma vd_node_soft o anc e f :
  (suppressed o anc e = true -> Q e) -> vd f -> vd (node_rule_soft o anc e f).
Proof. intros S F. apply vd_node; [exact S|exact F|apply vd_dangling]. Qed.
Lemma vd_braces d : vd d -> vd (in_braces d).
Proof. intros H. cbn. pose proof (vd_block d H). tauto. Qed.
Lemma vd_if_broken d : vd d -> vd (in_braces_if_broken d).
Proof. intros H. cbn. pose proof (vd_soft d H). tauto. Qed.
Lemma vd_loop_body b d : vd d -> vd (loop_body b d).
Proof. intros H. unfold loop_body. destruct (is_braced b); [exact H|apply vd_braces, H]. Qed.
Lemma vd_function_body b d : vd d -> vd (function_body b d).
Proof.
  intros H. unfold function_body. destruct (is_braced b); [exact H|].
  destruct (n_newline _); [apply vd_braces, H|apply vd_if_broken, H].
Qed.
Lemma vd_if_body a f b d : vd d -> vd (if_body a f b d).
Proof.
  intros H. unfold if_body. destruct (is_braced b); [exact H|].
  destruct (is_if b && a); [exact H|]. destruct f; [apply vd_braces, H|apply vd_if_broken, H].
Qed.
Lemma vd_maybe_space b : vd (maybe_space b).
Proof. destruct b; exact I. Qed.
Lemma vd_entries double l : forall first, Forall (fun x => vd (snd x)) l ->
  vd (join_entries double first l).
Proof.
  induction l as [|[e d] l IH]; intros first F; [exact I|]. inversion F; subst.
  cbn [join_entries]. vcat; [|assumption|apply IH; assumption].
  destruct first; [exact I|]. unfold entry_break. destruct double.
  - destruct (2 <? _); [cbn; auto|]. destruct (_ =? _); exact I.
  - destruct (1 <? _); exact I.
Qed.
Lemma vd_params l : forall first, Forall (fun x => vd (snd x)) l -> vd (join_params first l).
Proof.
  induction l as [|[e d] l IH]; intros first F; [exact I|]. inversion F; subst.
  cbn [join_params]. vcat; [|assumption| |apply IH; assumption].
  - destruct first; exact I.
  - destruct l; exact I.
Qed.

(** Arguments. *)
Definition vinfo (i : ainfo) : Prop :=
  vd (ai_doc i) /\ vd (ai_fields i) /\ forall d, ai_function i = Some d -> vd d.
Lemma vd_arg_doc a : vinfo (fst a) -> vd (arg_doc a).
Proof. intros [H _]. split; [exact H|]. destruct (snd a); exact I. Qed.
Lemma vd_grouped_last only a : vinfo (fst a) -> vd (grouped_last only a).
Proof.
  intros H. pose proof (vd_arg_doc a H) as A. unfold grouped_last.
  destruct (ai_function (fst a)) as [d|] eqn:E; [|exact A]. destruct only; [exact A|].
  destruct H as [_ [_ H]]. split; [exact (H d E)|]. destruct (snd a); exact I.
Qed.
Lemma vd_broken_args l : forall first, Forall (fun a => vinfo (fst a)) l -> vd (broken_args first l).
Proof.
  induction l as [|a l IH]; intros first F; [exact I|]. inversion F; subst. cbn [broken_args].
  vcat; [destruct first; exact I|apply vd_arg_doc; assumption|].
  apply IH. assumption.
Qed.
Lemma vd_holes hs : Forall (fun a => vinfo (fst a)) hs -> vd (holes_doc hs).
Proof.
  intros F. unfold holes_doc. apply vd_cat. apply Forall_map.
  refine (Forall_impl _ _ F). intros a. apply vd_arg_doc.
Qed.
Lemma vd_broken_out l r rc hs args e :
  vd l -> vd r -> Forall (fun a => vinfo (fst a)) hs -> Forall (fun a => vinfo (fst a)) args ->
  vd (all_broken_out l r rc hs args e).
Proof.
  intros L R H A. unfold all_broken_out. cbn [group vd]. vcat; [exact L|apply vd_holes, H|apply vd_maybe_space| |exact R].
  pose proof (vd_broken_args args true A). destruct (_ && _); [assumption|apply vd_soft; assumption].
Qed.
Lemma vd_join_grouped only wrap args (W : forall d, vd d -> vd (wrap d)) : forall first,
  Forall (fun a => vinfo (fst a)) args -> vd (join_grouped only first wrap args).
Proof.
  induction args as [|a args IH]; intros first F; [exact I|]. inversion F; subst.
  cbn [join_grouped]. vcat.
  - destruct first; exact I.
  - destruct args; [apply W, vd_grouped_last; assumption|apply vd_arg_doc; assumption].
  - apply IH. assumption.
Qed.
Lemma vd_grouped l r rc hs args :
  vd l -> vd r -> Forall (fun a => vinfo (fst a)) hs -> Forall (fun a => vinfo (fst a)) args ->
  vd (write_grouped l r rc hs args).
Proof.
  intros L R H A. unfold write_grouped.
  pose proof (vd_broken_out l r rc hs args true L R H A) as B.
  destruct (last_opt args) as [b|]; [|exact B]. cbv zeta. destruct (existsb _ _); [exact B|].
  match goal with |- vd (if ?b then all_broken_out _ _ _ _ _ _ else _) => destruct b end;
    [exact B|].
  assert (V : forall w, (forall d, vd d -> vd (w d)) ->
    vd (cat [ l; holes_doc hs; maybe_space (nonempty hs && nonempty args);
      join_grouped (length args =? 1) true w args; r ])).
  { intros w W. vcat;
      [exact L|apply vd_holes, H|apply vd_maybe_space|apply vd_join_grouped; assumption|exact R]. }
  assert (W1 : forall d, vd d -> vd ((fun d => d) d)) by auto.
  assert (W2 : forall d, vd d -> vd (group true d)) by (intros d X; exact X).
  destruct (will_break _).
  - split; [exact I|]. split; [apply V, W2|exact B].
  - split; [apply V, W1|]. split; [apply V, W2|exact B].
Qed.
Lemma in_take_holes l (a : ainfo * bool) : In a (take_holes l) -> In a l.
Proof. intros H. rewrite <- (holes_split l). apply in_or_app. left. exact H. Qed.
Lemma in_drop_holes' l (a : ainfo * bool) : In a (drop_holes l) -> In a l.
Proof. intros H. rewrite <- (holes_split l). apply in_or_app. right. exact H. Qed.
Lemma vd_call_like o n k rc infos :
  Forall vinfo infos -> vd (rule_call_like o n k rc infos).
Proof.
  intros F. unfold rule_call_like.
  destruct infos as [|i0 infos0] eqn:E.
  { vcat. apply vd_dangling. }
  rewrite <- E in *. clear E i0 infos0.
  assert (W : Forall (fun a => vinfo (fst a)) (with_seps infos)).
  { apply Forall_forall. intros a I. rewrite Forall_forall in F. apply F, in_with_seps, I. }
  destruct (match k with KCall => _ | _ => _ end).
  - split; [exact I|]. split; [|cbn; auto]. generalize true.
    induction W as [|a l Wa Wl IH]; intros first; [exact I|].
    vcat; [destruct first; exact I|apply vd_arg_doc; exact Wa|apply IH].
  - cbv zeta.
    assert (Wt : Forall (fun a => vinfo (fst a)) (take_holes (with_seps infos))).
    { apply Forall_forall. intros a I. rewrite Forall_forall in W. apply W, in_take_holes, I. }
    assert (Wd : Forall (fun a => vinfo (fst a)) (drop_holes (with_seps infos))).
    { apply Forall_forall. intros a I. rewrite Forall_forall in W. apply W, in_drop_holes', I. }
    assert (B : forall e, vd (all_broken_out (token_doc (l_token k)) (token_doc (r_token k)) rc
        (take_holes (with_seps infos)) (drop_holes (with_seps infos)) e))
      by (intros e; apply vd_broken_out; try assumption; exact I).
    match goal with |- vd (if ?b then _ else _) => destruct b end; [apply B|].
    match goal with |- vd (if ?b then _ else _) => destruct b end; [apply B|].
    match goal with |- vd (if ?b then _ else _) => destruct b end; [|apply B].
    apply vd_grouped; try assumption; exact I.
Qed.
Lemma vd_raw ps :
  (forall e, In (PWord (WVerb e)) ps -> Q e) -> vd (raw_pieces ps).
Proof.
  intros H. apply vd_cat. apply Forall_forall. intros d I. apply in_map_iff in I.
  destruct I as [p [<- I]]. destruct p as [w| |]; try exact Logic.I.
  destruct w; try exact Logic.I. exact (H _ I).
Qed.
Lemma vd_table pc infos t :
  cell_printer pc -> Forall vinfo infos ->
  build_table ainfo ai_node (cell_text pc) (with_seps infos) = Some t ->
  vd (write_table ainfo ai_node own_lead own_trail ai_doc (token_doc tCOMMA)
        (token_doc tLPAREN) (token_doc tRPAREN) t).
Proof.
  intros Cp F B. unfold build_table in B. apply build_loop_spec in B; [|intros c []].
  destruct B as [B1 B2]. cbn [concat map app] in B1.
  rewrite Forall_forall in F.
  assert (Fc : forall c, In c (concat (rows _ t)) -> vinfo (ce_arg _ c)).
  { intros c Ic. apply F. apply (in_with_seps infos (cell_arg c)). rewrite <- B1.
    apply in_or_app. left. apply in_map, Ic. }
  assert (Fr : forall a, In a (remaining _ t) -> vinfo (fst a)).
  { intros a Ia. apply F, in_with_seps. rewrite <- B1. apply in_or_app. right. exact Ia. }
  unfold write_table. cbn [group vd]. vcat.
  apply vd_soft. split.
  - assert (X : forall rs first, (forall c, In c (concat rs) -> In c (concat (rows _ t))) ->
      vd (write_rows ainfo ai_node own_lead own_trail ai_doc (token_doc tCOMMA) (cols _ t) first rs)).
    { induction rs as [|row rs IH]; intros first I; [exact Logic.I|]. cbn [write_rows]. vcat.
      - destruct first; [exact Logic.I|]. destruct row; exact Logic.I.
      - assert (Ir : forall c, In c row -> In c (concat (rows _ t)))
          by (intros c Ic; apply I; cbn [concat]; apply in_or_app; left; exact Ic).
        clear I IH. generalize 0. induction row as [|c row IH]; intros j; [exact Logic.I|].
        cbn [write_cells]. split; [|apply IH; intros c' Ic; apply Ir; right; exact Ic].
        specialize (Ir c (or_introl eq_refl)). pose proof (Fc c Ir) as [V1 [V2 _]].
        destruct (B2 c Ir) as [_ K]. unfold write_cell. destruct (cell_padding _ _) as [lp rp].
        vcat.
        + unfold write_spaces. destruct (0 <? lp); exact Logic.I.
        + destruct (ce_kind _ c) as [iw fw|ps]; [exact V1|]. vcat.
          * apply vd_leading.
          * specialize (K ps eq_refl). unfold cell_text in K.
            destruct (pc _) as [ps'|] eqn:EP; [|discriminate].
            destruct (existsb _ ps'); [discriminate|]. injection K as ->.
            apply Cp in EP. destruct EP as [os [Lo ->]].
            pose proof (vd_lay _ _ _ (vd_remove _ V2) (lay_glay _ _ _ Lo)) as Fo.
            apply vd_raw. intros e I. apply word_run in I. destruct I as [I|[c' E]]; [|discriminate].
            rewrite Forall_forall in Fo. exact (Fo _ I).
          * apply vd_trailing.
        + destruct (ce_sep _ c); [|exact Logic.I]. unfold write_spaces. destruct (0 <? rp); exact Logic.I.
        + destruct (ce_sep _ c); [cbn; auto|exact Logic.I].
      - apply IH. intros c Ic. apply I. cbn [concat]. apply in_or_app. right. exact Ic. }
    apply X. auto.
  - unfold write_remaining. destruct (remaining _ t) as [|a0 l0]; [exact I|].
    split; [exact I|]. apply vd_cat. apply Forall_forall. intros d Id. apply in_map_iff in Id.
    destruct Id as [[a sep] [<- Ia]]. vcat.
    + exact (proj1 (Fr _ Ia)).
    + destruct sep; exact I.
Qed.
End Verbs.
Ltac ungroup := try match goal with |- vd ?Q (DGroup _ ?d) => change (vd Q d) end.
Ltac vcat := unfold rule_sticky, rule_unary, rule_paren, rule_assignment, rule_comparison,
  rule_for, rule_while, rule_repeat, rule_if, rule_else, rule_param, rule_default,
  rule_function, rule_name_clause, group; ungroup;
  refine (proj2 (vd_cat _ _) _); repeat (apply Forall_cons || apply Forall_nil); ungroup; try exact I.

Lemma vd_weaken (Q Q' : expr -> Prop) d : (forall e, Q e -> Q' e) -> vd Q d -> vd Q' d.
Proof.
  intros W. induction d as [|a IHa b IHb|w| |l|d IH|e d IH|d IH| |g c|a IHa b IHb|]; cbn [vd];
    try tauto; try (intros [A B]; split; auto). destruct w; auto.
Qed.

Section Skips.
Variable o : format_options.
Variable pc : doc -> option (list piece).
Hypothesis Cp : cell_printer pc.

(** Inside [e] at [p], where it may be copied. *)
Definition may_copy (p : pos) (e y : expr) : Prop :=
  exists p', inside o p e p' y /\ (skip_asked o p' y \/ table_args p' y).
Lemma may_copy_below p e p' x y : child_of o p e p' x -> may_copy p' x y -> may_copy p e y.
Proof. intros C [p'' [I H]]. exists p''. split; [exact (N_below _ _ _ _ _ _ _ C I)|exact H]. Qed.

Definition table_fits (p : pos) (fo : fopt) : Prop := fo_table fo = Some true -> q_table p = true.
Definition sound (e : expr) : Prop :=
  forall anc p fo, agree anc p -> table_fits p fo -> vd (may_copy p e) (fmt o pc anc fo e).

Lemma sound_child p e p' x anc fo :
  sound x -> child_of o p e p' x -> agree anc p' -> table_fits p' fo ->
  vd (may_copy p e) (fmt o pc anc fo x).
Proof.
  intros S C A T. refine (vd_weaken _ _ _ _ (S anc p' fo A T)).
  intros y. apply may_copy_below, C.
Qed.
Lemma fits_fo0 p : table_fits p fo0.
Proof. discriminate. Qed.
Lemma sound_self anc p e : agree anc p -> suppressed o anc e = true -> may_copy p e e.
Proof.
  intros A S. exists p. split; [constructor|]. left.
  exact (suppressed_asked o anc e p (proj1 (proj2 A)) S).
Qed.

Lemma sound_spine N (Q : expr -> Prop) :
  (forall x, esize x < N -> sound x) -> forall l, esize l < N ->
  forall anc p dl tail, spine o pc anc l = (dl, tail) -> agree anc p ->
  (forall y, may_copy p l y -> Q y) ->
  vd Q dl /\ Forall (fun t => vd Q (tp_doc t)) tail.
Proof.
  intros IH.
  assert (Stop : forall l anc p dl tail, esize l < N -> (fmt o pc anc fo0 l, []) = (dl, tail) ->
    agree anc p -> (forall y, may_copy p l y -> Q y) ->
    vd Q dl /\ Forall (fun t : tail_piece => vd Q (tp_doc t)) tail).
  { intros l anc p dl tail Sz E A W. injection E as <- <-. split; [|constructor].
    exact (vd_weaken _ _ _ W (IH l Sz anc p fo0 A (fits_fo0 p))). }
  induction l as [| | n l op r IHl IHr| | | | | | | | | | | | | | | | |] using expr_ind';
    intros Sz anc p dl tail Sp A W; try exact (Stop _ _ _ _ _ Sz Sp A W).
  cbn [spine] in Sp. destruct (is_chain_op op) eqn:EC; [|exact (Stop _ _ _ _ _ Sz Sp A W)].
  destruct (spine o pc (FBinary op :: anc) l) as [dl' tail'] eqn:ES. injection Sp as <- <-.
  cbn [esize] in Sz.
  destruct (IHl ltac:(lia) (FBinary op :: anc) (p_operand (q_eq p) op false) dl' tail' ES)
    as [V1 V2].
  - apply agree_operand, A.
  - intros y H. apply W. exact (may_copy_below _ _ _ _ _ (C_left _ _ _ _ _ _) H).
  - split; [exact V1|]. apply Forall_app. split; [exact V2|]. constructor; [|constructor].
    cbn [tp_doc]. refine (vd_weaken _ _ _ _ (IH r ltac:(lia) _ (p_operand (q_eq p) op false) fo0
      (agree_operand _ _ _ _ A) (fits_fo0 _))).
    intros y H. apply W. refine (may_copy_below _ _ _ _ _ (C_right _ _ _ _ _ _ false _) H).
    discriminate.
Qed.

Lemma fmt_sound : forall N e, esize e < N -> sound e.
Proof.
  induction N as [|N IH]; intros e Sz; [lia|]. intros anc p fo A T.
  pose proof (sound_self anc p e A) as Self.
  assert (Ch : forall p' x f anc' fo', esize x < esize e -> child_of o p e p' x ->
    agree anc' p' -> table_fits p' fo' -> f = fmt o pc anc' fo' x -> vd (may_copy p e) f).
  { intros p' x f anc' fo' Sx C A' T' ->. apply (sound_child p e p'); try assumption.
    apply IH. lia. }
  destruct e as [n k ts|n op a|n l op r|n l op r|n l op r|n name ps b|n items|n a d|n v|n c t el
    |n nl a|n v s b|n c b|n b|n es|n b|n f args|n k rc items|n nm v sl|n nm];
    try change (fmt o pc anc fo (EArgs n k rc items)) with
      (node_rule o anc (EArgs n k rc items)
        (rule_args o pc (EArgs n k rc items) n k rc
           (match fo_table fo with Some t => t | None => false end)
           (map (arg_info o pc anc) items)) DNil);
    cbn [fmt].
  - apply vd_node_soft; [exact Self|]. apply vd_cat. apply Forall_map, Forall_forall. intros. exact I.
  - apply vd_node_soft; [exact Self|]. vcat; [apply vd_maybe_space|].
    assert (X : vd (may_copy p (EUnary n op a)) (fmt o pc (FUnary op :: anc) fo0 a)).
    { eapply Ch; [|apply C_unary|apply agree_unary|apply fits_fo0|reflexivity]. cbn; lia. }
    destruct (_ && _); [apply vd_soft, X|exact X].
  - apply vd_node_soft; [exact Self|].
    assert (L : vd (may_copy p (EBinary n l op r)) (fmt o pc (FBinary op :: anc) fo0 l)).
    { eapply Ch; [|apply C_left|apply agree_operand, A|apply fits_fo0|reflexivity]. cbn; lia. }
    assert (R : vd (may_copy p (EBinary n l op r)) (fmt o pc (FBinary op :: anc) fo0 r)).
    { eapply Ch; [|apply (C_right _ _ _ _ _ _ false); discriminate|apply agree_operand, A
        |apply fits_fo0|reflexivity]. cbn; lia. }
    destruct (classify (t_kind op)) eqn:EC.
    + vcat; assumption.
    + vcat; [exact L|].
      assert (R' : vd (may_copy p (EBinary n l op r))
                     (fmt o pc (FBinary op :: anc) (rhs_options o anc n op r) r)).
      { eapply (Ch (p_operand (q_eq p) op (match fo_table (rhs_options o anc n op r) with
                                          | Some t => t | None => false end)));
          [|apply C_right|apply agree_operand, A| |reflexivity]; [cbn; lia| |].
        - unfold rhs_options. cbv zeta. destruct (_ && _); [discriminate|].
          destruct r; try discriminate.
          destruct (has_directive DTable anc n && is_call_args r2) eqn:E; [|discriminate].
          intros _. apply andb_true_iff in E. destruct E as [E _].
          split; [apply classify_assignment, EC|].
          exact (proj1 (has_directive_asked DTable anc n p (proj1 (proj2 A))) E).
        - intros E. cbn [p_operand mkpos q_table]. rewrite E. reflexivity. }
      destruct (persistent_assignment o op r); [apply vd_indent|]; split; auto; exact I.
    + change (vd (may_copy p (EBinary n l op r))
        (let '(dl, tail) := spine o pc (FBinary op :: anc) l in
         rule_chain o (fo_left fo) dl
           (tail ++ [ {| tp_op := op; tp_right := r;
              tp_doc := fmt o pc (FBinary op :: anc) fo0 r; tp_enclosing := None |} ]))).
      destruct (spine o pc (FBinary op :: anc) l) as [dl tail] eqn:ES.
      destruct (sound_spine N (may_copy p (EBinary n l op r)) IH l) with
        (anc := FBinary op :: anc) (p := p_operand (q_eq p) op false) (dl := dl) (tail := tail)
        as [V1 V2]; [cbn in Sz; lia|exact ES|apply agree_operand, A| |].
      { intros y. apply may_copy_below, C_left. }
      assert (X : vd (may_copy p (EBinary n l op r))
        (cat (map chain_piece (tail ++ [ {| tp_op := op; tp_right := r;
              tp_doc := fmt o pc (FBinary op :: anc) fo0 r; tp_enclosing := None |} ])))).
      { apply vd_cat, Forall_map. apply Forall_app. split.
        - refine (Forall_impl _ _ V2). intros t Vt. vcat.
          + destruct (tp_enclosing t) as [n'|]; [destruct (n_lead n' ++ n_dang n')|]; exact I.
          + exact Vt.
          + destruct (tp_enclosing t); [apply vd_trailing|exact I].
        - constructor; [|constructor]. vcat. exact R. }
      split; [exact V1|]. destruct (fo_left fo); [exact X|apply vd_indent, X].
    + vcat; [exact L|]. apply vd_indent. split; [exact I|exact R].
    + exact I.
  - apply vd_node_soft; [exact Self|]. vcat.
    + eapply Ch; [|apply C_extract_left|apply (agree_plain FExtract); reflexivity|apply fits_fo0
        |reflexivity]. cbn; lia.
    + eapply Ch; [|apply C_extract_right|apply (agree_plain FExtract); reflexivity|apply fits_fo0
        |reflexivity]. cbn; lia.
  - apply vd_node_soft; [exact Self|]. vcat.
    + eapply Ch; [|apply C_namespace_left|apply (agree_plain FNamespace); reflexivity|apply fits_fo0
        |reflexivity]. cbn; lia.
    + eapply Ch; [|apply C_namespace_right|apply (agree_plain FNamespace); reflexivity|apply fits_fo0
        |reflexivity]. cbn; lia.
  - apply vd_node_soft; [exact Self|].
    assert (Ps : vd (may_copy p (EFunction n name ps b)) (fmt o pc (FFunction false :: anc) fo0 ps)).
    { eapply Ch; [|apply C_params|apply (agree_plain (FFunction false)); reflexivity|apply fits_fo0
        |reflexivity]. cbn; lia. }
    vcat.
    + destruct (fo_grouped fo); [apply vd_remove, Ps|exact Ps].
    + apply vd_function_body. eapply Ch; [|apply C_function_body
        |apply (agree_body (FFunction true)); reflexivity|apply fits_fo0|reflexivity]. cbn; lia.
  - apply vd_node; [exact Self| |exact I].
    assert (F : Forall (fun x => vd (may_copy p (EParams n items)) (snd x))
      (map (fun x => (x, fmt o pc (FParamList :: anc) fo0 x)) items)).
    { apply Forall_map, Forall_forall. intros x Ix. cbn [snd].
      eapply Ch; [|apply C_param, Ix|apply (agree_plain FParamList); reflexivity|apply fits_fo0
        |reflexivity]. pose proof (esize_In x items Ix). cbn. lia. }
    destruct items as [|x0 items]; cbn [map rule_params].
    + vcat. apply vd_dangling.
    + cbn [group vd]. vcat. apply vd_soft, vd_params, F.
  - apply vd_node_soft; [exact Self|].
    assert (X : vd (may_copy p (EParam n a d)) (fmt o pc (FParam :: anc) fo0 a)).
    { eapply Ch; [|apply C_param_name|apply (agree_plain FParam); reflexivity|apply fits_fo0
        |reflexivity]. cbn; lia. }
    destruct d as [d|]; [|exact X]. vcat; [exact X|].
    eapply Ch; [|apply C_param_default|apply (agree_plain FParam); reflexivity|apply fits_fo0
        |reflexivity]. cbn; lia.
  - apply vd_node_soft; [exact Self|]. vcat.
    eapply Ch; [|apply C_default|apply (agree_plain FDefault); reflexivity|apply fits_fo0
        |reflexivity]. cbn; lia.
  - apply vd_node_soft; [exact Self|]. vcat.
    + apply vd_soft. eapply Ch; [|apply C_cond|apply (agree_plain (FIf SCond)); reflexivity|apply fits_fo0
        |reflexivity]. cbn; lia.
    + apply vd_if_body. eapply Ch; [|apply C_then|apply (agree_body (FIf SThen)); reflexivity
        |apply fits_fo0|reflexivity]. cbn; lia.
    + destruct el as [x|]; [|exact I]. split; [exact I|].
      eapply Ch; [|apply C_else|apply (agree_plain (FIf SElse)); reflexivity| |reflexivity];
        [cbn; lia|discriminate].
  - apply vd_node_soft; [exact Self|]. vcat.
    apply vd_if_body. eapply Ch; [|apply C_else_body|apply (agree_body FElse); reflexivity
        | |reflexivity]; [cbn; lia|]. destruct (is_if a); discriminate.
  - apply vd_node_soft; [exact Self|]. vcat.
    + eapply Ch; [|apply C_for_var|apply (agree_plain (FFor false)); reflexivity|apply fits_fo0
        |reflexivity]. cbn; lia.
    + eapply Ch; [|apply C_for_seq|apply (agree_plain (FFor false)); reflexivity|apply fits_fo0
        |reflexivity]. cbn; lia.
    + apply vd_loop_body. eapply Ch; [|apply C_for_body|apply (agree_body (FFor true)); reflexivity
        |apply fits_fo0|reflexivity]. cbn; lia.
  - apply vd_node_soft; [exact Self|]. vcat.
    + apply vd_soft. eapply Ch; [|apply C_while_cond|apply (agree_plain (FWhile false)); reflexivity
        |apply fits_fo0|reflexivity]. cbn; lia.
    + apply vd_loop_body. eapply Ch; [|apply C_while_body|apply (agree_body (FWhile true)); reflexivity
        |apply fits_fo0|reflexivity]. cbn; lia.
  - apply vd_node_soft; [exact Self|]. vcat.
    apply vd_loop_body. eapply Ch; [|apply C_repeat|apply (agree_body FRepeat); reflexivity
        |apply fits_fo0|reflexivity]. cbn; lia.
  - (* braces *)
    apply vd_node; [exact Self| |exact I].
    assert (F : forall a b, es = a ++ b -> Forall (fun x => vd (may_copy p (EBraced n es)) (snd x))
      ((fix go (l : list expr) : list (expr * doc) :=
         match l with
         | [] => []
         | x :: r => (x, fmt o pc (FBracedList (is_last r) :: anc) fo0 x) :: go r
         end) b)).
    { intros a b. revert a. induction b as [|x b IHb]; intros a E; constructor.
      - cbn [snd]. subst es. eapply Ch; [|apply C_stmt| |apply fits_fo0|reflexivity].
        + pose proof (esize_In x (a ++ x :: b) (in_elt x a b)). cbn. lia.
        + destruct b; repeat split.
      - apply (IHb (a ++ [x])). rewrite <- app_assoc. exact E. }
    specialize (F [] es eq_refl). pose proof (vd_entries _ false _ true F) as F'.
    unfold rule_braced. destruct (variant_of anc n es) eqn:EV.
    + vcat.
    + vcat. apply vd_dangling_block.
    + destruct (n_dang inner); [|exact I].
      cbn [group vd]. vcat; [apply vd_leading| |apply vd_trailing].
      apply vd_between. unfold variant_of in EV.
      destruct es as [|e0 [|? ?]]; [destruct (n_dang n); discriminate| |].
      2:{ destruct e0; try exact I. destruct es as [|? [|? ?]]; exact I. }
      destruct e0 as [| | | | | | | | | | | | | |n0 es0| | | | |]; try exact I.
      destruct es0 as [|x [|? ?]]; try exact I.
      refine (vd_weaken _ _ _ _ (IH x _ _ (p_stmt false) fo0 _ (fits_fo0 _))).
      * intros y H. refine (may_copy_below _ _ _ _ _ (C_stmt _ _ _ [] (EBraced n0 [x]) []) _).
        exact (may_copy_below _ _ _ _ _ (C_stmt _ _ _ [] x []) H).
      * cbn in Sz. lia.
      * repeat split.
    + apply vd_braces, F'.
  - apply vd_node_soft; [exact Self|].
    assert (X : vd (may_copy p (EParen n b)) (fmt o pc (FParen :: anc) fo0 b)).
    { eapply Ch; [|apply C_paren|apply (agree_body FParen); reflexivity|apply fits_fo0
        |reflexivity]. cbn; lia. }
    vcat. destruct (n_direct _); [apply vd_block, X|exact X].
  - apply vd_node_soft; [exact Self|]. split.
    + eapply Ch; [|apply C_callee|apply (agree_plain FCall); reflexivity|apply fits_fo0
        |reflexivity]. cbn; lia.
    + eapply (Ch (mkpos false false false
        (match fo_table (call_options o anc n fo f args) with Some t => t | None => false end)));
        [|apply C_args| | |reflexivity].
      * cbn; lia.
      * unfold call_options. cbn [fo_table fo_with_table]. intros E.
        apply andb_true_iff in E. destruct E as [_ E]. unfold table_asked.
        unfold table_fits in T. destruct (fo_table fo) as [[]|]; [left; apply T; reflexivity|discriminate|].
        apply orb_true_iff in E. destruct E as [E|E].
        -- right. left. exact (proj1 (has_directive_asked DTable anc n p (proj1 (proj2 A))) E).
        -- right. right. apply in_setting_listed, E.
      * repeat split.
      * intros E. cbn [mkpos q_table]. rewrite E. reflexivity.
  - (* arguments *)
    apply vd_node; [exact Self| |exact I].
    assert (F : Forall (vinfo (may_copy p (EArgs n k rc items))) (map (arg_info o pc anc) items)).
    { apply Forall_map, Forall_forall. intros x Ix. pose proof (esize_In x items Ix) as Szx.
      cbn [esize] in Sz.
      assert (Cx : forall q y anc' fo', child_of o p_item x q y -> esize y < esize x ->
        agree anc' q -> table_fits q fo' ->
        vd (may_copy p (EArgs n k rc items)) (fmt o pc anc' fo' y)).
      { intros q y anc' fo' C Sy A' T'.
        refine (vd_weaken _ _ _ _ (IH y _ anc' q fo' A' T')); [|lia].
        intros z H. refine (may_copy_below _ _ _ _ _ (C_item _ _ _ _ _ _ _ Ix) _).
        exact (may_copy_below _ _ _ _ _ C H). }
      split; [|split].
      - cbn [arg_info ai_doc]. eapply Ch; [|apply C_item, Ix| |apply fits_fo0|reflexivity].
        + cbn. lia.
        + repeat split.
      - cbn [arg_info ai_fields]. destruct x; try exact I.
        assert (Cn : forall c, nm = Some c ->
          vd (may_copy p (EArgs n k rc items)) (fmt o pc (FArg :: FArgList :: anc) fo0 c)).
        { intros c ->. eapply Cx; [apply C_arg_name|cbn; lia|apply (agree_plain FArg); reflexivity
            |apply fits_fo0]. }
        assert (Cv : forall c, v = Some c ->
          vd (may_copy p (EArgs n k rc items)) (fmt o pc (FArg :: FArgList :: anc) fo0 c)).
        { intros c ->. eapply Cx; [apply C_arg_value|cbn; lia|apply (agree_plain FArg); reflexivity
            |apply fits_fo0]. }
        destruct nm as [c|], v as [v|]; cbn [argument_fields]; try vcat;
          auto; try exact I.
      - intros d D. cbn [arg_info ai_function] in D.
        destruct x; try discriminate. destruct v as [v|]; [|discriminate].
        destruct v; try discriminate. injection D as <-. split; [|split; [|exact I]].
        + destruct nm as [c|]; [|exact I]. split; [|exact I].
          eapply Cx; [apply C_arg_name|cbn; lia|apply (agree_plain FArg); reflexivity
            |apply fits_fo0].
        + apply (Cx p_plain (EFunction n1 name v1 v2) (FArg :: FArgList :: anc) fo_with_grouped);
            [apply C_arg_value|cbn; lia|apply (agree_plain FArg); reflexivity|discriminate]. }
    pose proof (vd_call_like _ o n k rc _ F) as G.
    unfold rule_args. destruct k; try exact G.
    destruct (fo_table fo) as [[]|] eqn:ET; try exact G.
    destruct (map (arg_info o pc anc) items) as [|i0 infos0] eqn:EI; [exact G|]. rewrite <- EI in *.
    destruct (build_table _ _ _ _) as [t|] eqn:EB.
    + exact (vd_table _ pc _ t Cp F EB).
    + apply vd_verbatim. exists p. split; [constructor|]. right. split; [exact (T ET)|].
      eexists _, _, _. reflexivity.
  - apply vd_node_soft; [exact Self|].
    assert (Cn : forall c, nm = Some c ->
      vd (may_copy p (EArg n nm v sl)) (fmt o pc (FArg :: anc) fo0 c)).
    { intros c ->. eapply Ch; [|apply C_arg_name|apply (agree_plain FArg); reflexivity
        |apply fits_fo0|reflexivity]. cbn; lia. }
    assert (Cv : forall c, v = Some c ->
      vd (may_copy p (EArg n nm v sl)) (fmt o pc (FArg :: anc) fo0 c)).
    { intros c ->. eapply Ch; [|apply C_arg_value|apply (agree_plain FArg); reflexivity
        |apply fits_fo0|reflexivity]. destruct nm; cbn; lia. }
    destruct nm as [c|], v as [v|]; cbn [argument_fields]; try vcat;
      auto; try exact I.
  - apply vd_node_soft; [exact Self|]. vcat.
    eapply Ch; [|apply C_name|apply (agree_plain FNameClause); reflexivity|apply fits_fo0
        |reflexivity]. cbn; lia.
Qed.

Lemma only_asked r out y :
  prints (root_doc o pc r) out -> In (PWord (WVerb y)) out ->
  exists e p, In e (r_exprs r) /\ inside o (p_stmt true) e p y /\
    (skip_asked o p y \/ table_args p y).
Proof.
  intros [os [L ->]] H. apply word_run in H. destruct H as [H|[c E]]; [|discriminate].
  assert (V : vd (fun y => exists e p, In e (r_exprs r) /\ inside o (p_stmt true) e p y /\
                 (skip_asked o p y \/ table_args p y)) (root_doc o pc r)).
  { unfold root_doc. vcat.
    - apply vd_leading.
    - destruct (r_bom r); exact I.
    - apply vd_entries, Forall_map, Forall_forall. intros e Ie. cbn [snd].
      refine (vd_weaken _ _ _ _ (fmt_sound (S (esize e)) e ltac:(lia) [FRootList] (p_stmt true) fo0 _ _)).
      + intros z [p [A B]]. exists e, p. auto.
      + repeat split.
      + apply fits_fo0.
    - apply vd_dangling.
    - apply vd_trailing. }
  pose proof (vd_lay _ _ _ _ V (lay_glay _ _ _ L)) as F. rewrite Forall_forall in F.
  exact (F _ H).
Qed.

(** * Skipped nodes are copied *)

Lemma asked_suppressed anc p e :
  agree anc p -> stored (o_skip o) -> skip_asked o p e -> suppressed o anc e = true.
Proof.
  intros A [names N] [H|[n [f [args [-> [Rc [l [name [El [Ca In]]]]]]]]]].
  - unfold suppressed.
    rewrite (proj2 (has_directive_asked DSkip anc (notes_of e) p (proj1 (proj2 A))) H).
    reflexivity.
  - unfold suppressed. apply orb_true_iff. right.
    destruct Rc as [n1 [f1 [n2 [rc [items E]]]]]. injection E as -> -> ->.
    cbn [is_call_args andb]. unfold in_setting. rewrite El.
    rewrite (proj2 (called_name_calls f1 name) Ca).
    rewrite N in El. destruct names as [names|]; [|discriminate]. injection El as <-.
    apply contains_sorted; [apply sort_texts_sorted|exact In].
Qed.

Lemma fmt_suppressed anc fo e : suppressed o anc e = true -> fmt o pc anc fo e = verbatim e.
Proof.
  intros S. destruct e; cbn [fmt]; unfold node_rule_soft, node_rule; rewrite S; reflexivity.
Qed.

Lemma verbatim_word m e os : glay m (verbatim e) os -> In (OStep (SWord (WVerb e))) os.
Proof.
  intros H. unfold verbatim in H. split_lay H. split_lay H. split_lay H. lay_nil H.
  cbn [glay] in A0. subst x0. apply in_or_app. right. left. reflexivity.
Qed.

Lemma skipped_copied r out p y :
  root_shaped r -> stored (o_skip o) -> in_file o r p y -> skip_asked o p y ->
  prints (root_doc o pc r) out -> exists a b, out = a ++ PWord (WVerb y) :: b.
Proof.
  intros Sh St I Sk [os [L ->]]. apply in_split.
  destruct (in_file_segment o pc r p y os Sh I L)
    as [anc [fo [m [pre [os' [post [A [F [G ->]]]]]]]]].
  rewrite (fmt_suppressed anc fo y (asked_suppressed anc p y A St Sk)) in G.
  apply run_word; [discriminate|]. apply in_or_app. right. apply in_or_app. left.
  exact (verbatim_word _ _ _ G).
Qed.
End Skips.
