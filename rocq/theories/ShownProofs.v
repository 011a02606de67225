(** Comments above a node of the output, behind it and in its brackets. *)
From Coq Require Import List Arith Bool NArith Lia.
From Verif Require Import Text SettingsModel SyntaxKind DirectiveModel FmtTree IrModel TableModel
  FmtModel FmtSpec FmtPathSpec FmtProofs FmtRunProofs FmtListProofs FmtTidyProofs FmtPathProofs
  FmtEdgeProofs FmtBlankProofs DressSpec DressProofs PlaceDressProofs BodySpec BesideSpec ShownSpec StillProofs.
Import ListNotations.

Lemma among_refl l : among l l.
Proof. induction l; [apply among_none|apply among_take; assumption]. Qed.
Lemma among_front a l m : among l m -> among l (a ++ m).
Proof. induction a; [auto|intros H; apply among_skip; auto]. Qed.
Lemma among_back l m b : among l m -> among l (m ++ b).
Proof. induction 1; cbn [app]; [apply among_none|apply among_skip; assumption|apply among_take; assumption]. Qed.
Lemma among_app a b c d : among a b -> among c d -> among (a ++ c) (b ++ d).
Proof.
  induction 1 as [m|x l m _ IH|x l m _ IH]; intros C; cbn [app]; [apply among_front, C|apply among_skip; auto|apply among_take; auto].
Qed.
Lemma among_trans b c : among b c -> forall a, among a b -> among a c.
Proof.
  induction 1 as [m|x l m _ IH|x l m _ IH]; intros a A; [inversion A; constructor|apply among_skip; auto|].
  inversion A; subst; [apply among_none|apply among_skip; auto|apply among_take; auto].
Qed.

(** Words that are comments, and line breaks. *)
Lemma flush_shows st held : ptokens (fst (flush (st, held))) = [] /\ pcomments (fst (flush (st, held))) = map snd held.
Proof.
  unfold flush. cbn [fst snd]. destruct (print_steps_shows (held_steps held) st) as [A B].
  rewrite held_tokens in A. rewrite held_comments in B. auto.
Qed.
Definition mild (x : op) : Prop :=
  match x with OStep (SWord (WComment _)) | OStep SSpace | OStep (SLine _) | OSuffix _ _ => True | _ => False end.
Lemma mild_tokens os : Forall mild os -> optokens os = [].
Proof.
  induction 1 as [|x os M _ IH]; [reflexivity|]. change (x :: os) with ([x] ++ os). rewrite optokens_app, IH.
  destruct x as [[[]| |]|]; try contradiction; reflexivity.
Qed.
Definition step_words (x : op) : list text :=
  match x with OStep (SWord (WComment c)) => [c] | _ => [] end.
Lemma mild_exec os : Forall mild os -> forall s, among (flat_map step_words os) (pcomments (fst (exec s os))).
Proof.
  induction 1 as [|x os M _ IH]; intros s; [constructor|].
  destruct x as [[w| |e]|g c]; try contradiction; cbn [exec flat_map step_words app].
  - destruct w; try contradiction. destruct (print_step (fst s) (SWord (WComment c))) as [o1 s1] eqn:E.
    pose proof (print_step_comments (fst s) (SWord (WComment c))) as P. rewrite E in P. cbn [fst step_comments word_comments] in P.
    specialize (IH (s1, snd s)). destruct (exec (s1, snd s) os) as [o2 s2]. cbn [fst] in *.
    rewrite pcomments_app, P. cbn [app]. apply among_take. exact IH.
  - destruct (print_step (fst s) SSpace) as [o1 s1]. specialize (IH (s1, snd s)). destruct (exec (s1, snd s) os) as [o2 s2].
    cbn [fst] in *. rewrite pcomments_app. apply among_front, IH.
  - destruct (flush s) as [o1 s1]. destruct (print_step s1 (SLine e)) as [o2 s2]. specialize (IH (s2, [])).
    destruct (exec (s2, []) os) as [o3 s3]. cbn [fst] in *. rewrite !pcomments_app. apply among_front, among_front, IH.
  - exact (IH _).
Qed.
Lemma leading_mild cs m os : glay m (leading_comments cs) os ->
  Forall mild os /\ flat_map step_words os = map c_text cs /\
  (os = [] \/ exists a w e, os = a ++ [OStep (SWord (WComment w)); OStep (SLine e)]).
Proof.
  revert os. induction cs as [|c cs IH]; intros os L.
  { cbn in L. subst os. repeat split; auto. }
  change (leading_comments (c :: cs)) with
    (DCat (cat [ DWord (WComment (c_text c)); DLine (if 1 <? c_after c then LEmpty else LHard) ])
          (leading_comments cs)) in L.
  split_lay L. split_lay A. split_lay A. lay_nil A. cbn [glay] in A0. subst x0.
  assert (E : x = [OStep (SLine (1 <? c_after c))]) by (destruct (1 <? c_after c); exact A1). subst x.
  destruct (IH y L) as [M [Wd Sh]]. cbn [app]. split; [repeat constructor; exact M|].
  split; [cbn [flat_map step_words app map]; rewrite Wd; reflexivity|]. right.
  destruct Sh as [->|(a & w & e & ->)]; [exists [], (c_text c), (1 <? c_after c); reflexivity|].
  eexists (_ :: _ :: a), w, e. reflexivity.
Qed.
Lemma held_end st held c e : exists a, fst (exec (st, held) [OStep (SWord (WComment c)); OStep (SLine e)]) = a ++ [PNewline].
Proof.
  set (st1 := snd (print_step st (SWord (WComment c)))).
  destruct (held_word_last [PWord (WComment c)] held) as (b & Eb & _); [exists [], (WComment c); reflexivity|].
  cbn [exec fst snd print_step]. unfold flush. cbn [fst snd]. fold on_line_st.
  change {| p_line := true; p_space := false; p_empty := false |} with on_line_st. rewrite Eb.
  cbn [print_step on_line_st p_line p_empty]. destruct e; cbn [andb negb]; cbn [fst snd app].
  - exists (((if p_space st then [PSpace] else []) ++ [PWord (WComment c)]) ++ b ++ [PNewline]).
    rewrite <- !app_assoc. reflexivity.
  - exists (((if p_space st then [PSpace] else []) ++ [PWord (WComment c)]) ++ b).
    rewrite <- !app_assoc. reflexivity.
Qed.
Lemma leading_shows cs m os s : glay m (leading_comments cs) os ->
  ptokens (fst (exec s os)) = [] /\ line_start (fst (exec s os)) /\ among (map c_text cs) (pcomments (fst (exec s os))).
Proof.
  intros L. destruct (leading_mild cs m os L) as (M & Wd & E). split; [rewrite exec_tokens; apply mild_tokens, M|].
  split; [|rewrite <- Wd; apply mild_exec, M].
  destruct E as [->|(a & w & e & ->)]; [left; reflexivity|]. right. rewrite exec_app.
  destruct (exec s a) as [o1 [st1 h1]]. destruct (held_end st1 h1 w e) as [q Q].
  destruct (exec (st1, h1) _) as [o2 s2]. cbn [fst] in *. rewrite Q. exists (o1 ++ q). rewrite app_assoc. reflexivity.
Qed.

(** What is held back is printed before the next line break. *)
Definition finish (s : state) (os : list op) : list piece := fst (exec s os) ++ fst (flush (snd (exec s os))).
Lemma finish_app a b s : finish s (a ++ b) = fst (exec s a) ++ finish (snd (exec s a)) b.
Proof.
  unfold finish. rewrite exec_app. destruct (exec s a) as [o1 s1]. cbn [fst snd]. destruct (exec s1 b) as [o2 s2]. cbn [fst snd].
  rewrite app_assoc. reflexivity.
Qed.
Lemma quick_step st x : still false [OStep x] -> (forall e, x <> SLine e) -> ~ In PNewline (fst (print_step st x)).
Proof.
  intros S N. destruct x as [w| |e]; [|intros []|destruct (N e eq_refl)].
  cbn [print_step fst]. intros I. apply in_app_or in I. destruct I as [I|[I|[]]].
  - destruct (p_space st); [destruct I as [I|[]]; discriminate I|destruct I].
  - destruct w; try discriminate I. cbn [still] in S. destruct S as [S _]. discriminate S.
Qed.
Lemma finish_held os : forall st held, still false os ->
  exists q h rest more, finish (st, held) os = q ++ h ++ rest /\ ~ In PNewline q /\ ptokens h = [] /\
    pcomments h = map snd held ++ more.
Proof.
  induction os as [|x os IH]; intros st held S.
  - exists [], (fst (flush (st, held))), [], []. destruct (flush_shows st held) as [A B]. rewrite !app_nil_r.
    split; [reflexivity|]. split; [intros []|]. auto.
  - assert (OK : forall y, x = OStep y -> (forall e, y <> SLine e) ->
      exists q h rest more, finish (st, held) (x :: os) = q ++ h ++ rest /\ ~ In PNewline q /\ ptokens h = [] /\
        pcomments h = map snd held ++ more).
    { intros y -> N.
      assert (S1 : still false [OStep y] /\ still false os).
      { destruct y as [w| |e]; [|split; [exact Logic.I|exact S]|destruct (N e eq_refl)].
        destruct w; try (split; [exact Logic.I|exact S]). destruct S as [S _]. discriminate S. }
      destruct S1 as [S1 S2]. pose proof (quick_step st y S1 N) as Q.
      assert (E : finish (st, held) (OStep y :: os) = fst (print_step st y) ++ finish (snd (print_step st y), held) os).
      { unfold finish. destruct y as [w| |e]; [| |destruct (N e eq_refl)]; cbn [exec fst snd];
          destruct (print_step st _) as [o1 s1]; cbn [fst snd];
          destruct (exec (s1, held) os) as [o2 s2]; cbn [fst snd]; rewrite app_assoc; reflexivity. }
      destruct (IH (snd (print_step st y)) held S2) as (q & h & rest & more & F & Nq & T & C).
      exists (fst (print_step st y) ++ q), h, rest, more. rewrite E, F, <- app_assoc. split; [reflexivity|].
      split; [intros I; apply in_app_or in I; tauto|]. auto. }
    destruct x as [[w| |e]|g c].
    + apply (OK (SWord w) eq_refl). discriminate.
    + apply (OK SSpace eq_refl). discriminate.
    + unfold finish. cbn [exec]. destruct (flush (st, held)) as [o1 s1] eqn:F.
      destruct (flush_shows st held) as [A B]. rewrite F in A, B. cbn [fst] in A, B.
      destruct (print_step s1 (SLine e)) as [o2 s2]. destruct (exec (s2, []) os) as [o3 s3]. cbn [fst snd].
      exists [], o1, (o2 ++ o3 ++ fst (flush s3)), []. rewrite app_nil_r, <- !app_assoc. split; [reflexivity|].
      split; [intros []|]. auto.
    + destruct (IH st (held ++ [(g, c)]) S) as (q & h & rest & more & F & Nq & T & C).
      exists q, h, rest, (c :: more). split; [exact F|]. split; [exact Nq|]. split; [exact T|].
      rewrite C, map_app, <- app_assoc. reflexivity.
Qed.
Lemma still_suffix x g c y : forall a, still a (x ++ OSuffix g c :: y) -> still false y.
Proof.
  intros a H. destruct (still_rest _ _ _ H) as [b K]. exact K.
Qed.
Lemma suffix_texts l : forall k, map snd (suffixes k l) = map c_text l.
Proof. induction l as [|c l IH]; intros k; [reflexivity|]. cbn [suffixes map snd]. rewrite IH. reflexivity. Qed.

Section Shown.
Variable o : format_options.
Variable pc : doc -> option (list piece).
Hypothesis Cp : cell_printer pc.

(** A node in a layout: its comments around its tokens. *)
Definition segment (p : pos) (e : expr) (os : list op) : Prop :=
  exists pre lead mid trail post m ls ts e',
    os = pre ++ lead ++ mid ++ trail ++ post /\
    glay m (leading_comments ls) lead /\ glay m (trailing_comments ts) trail /\
    (ls = n_lead (notes_of e) /\ ts = n_trail (notes_of e) \/
     skip_asked o p e /\ ls = outer (n_lead (notes_of e)) /\ ts = outer (n_trail (notes_of e))) /\
    tidy o p e e' /\ optokens mid = etokens e'.

Lemma kept_comments w cs l ls p e : BodySpec.holds w cs l -> w = false \/ ~ skip_asked o p e ->
  ls = cs \/ skip_asked o p e /\ ls = outer cs -> exists a b, map c_text ls = a ++ l ++ b.
Proof.
  intros (x & y & z & -> & <- & Fy) Q [->|[Sk ->]].
  - exists (map c_text x), (map c_text z). rewrite !map_app. reflexivity.
  - destruct Q as [->|Q]; [|contradiction]. unfold outer. rewrite !filter_app. fold (outer x) (outer y) (outer z).
    rewrite (outer_in y Fy), !map_app. eexists _, _. reflexivity.
Qed.

Lemma segment_above p e os w l : segment p e os -> BodySpec.holds w (n_lead (notes_of e)) l ->
  w = false \/ ~ skip_asked o p e -> shown_above o p e l (run os).
Proof.
  intros (pre & lead & mid & trail & post & m & ls & ts & e' & -> & Ll & Lt & D & Ti & Tk) H Q.
  destruct (kept_comments w _ l ls p e H Q) as (a & b & E); [destruct D as [[-> _]|[? [-> _]]]; auto|].
  rewrite run_exec. change (fst (exec ?s ?x) ++ _) with (finish s x). rewrite !finish_app.
  destruct (exec (pstart, []) pre) as [o1 s1]. cbn [fst snd].
  destruct (leading_shows ls m lead s1 Ll) as (T & Ls & Am).
  destruct (exec s1 lead) as [o2 s2]. cbn [fst snd] in *.
  pose proof (exec_tokens mid s2) as Tm. destruct (exec s2 mid) as [o3 s3]. cbn [fst snd] in *.
  exists o1, o2, o3. eexists. split; [reflexivity|]. split; [exact T|]. split; [exact Ls|].
  split; [refine (among_trans _ _ Am _ _); rewrite E; apply among_front, among_back, among_refl|].
  exists [e']. split; [repeat constructor; exact Ti|]. cbn [flat_map]. rewrite app_nil_r, Tm. exact Tk.
Qed.
Lemma segment_behind p e os w l : still false os -> segment p e os -> BodySpec.holds w (n_trail (notes_of e)) l ->
  w = false \/ ~ skip_asked o p e -> shown_behind o p e l (run os).
Proof.
  intros St (pre & lead & mid & trail & post & m & ls & ts & e' & -> & Ll & Lt & D & Ti & Tk) H Q.
  destruct (kept_comments w _ l ts p e H Q) as (a & b & E); [destruct D as [[_ ->]|[? [_ ->]]]; auto|].
  rewrite run_exec. change (fst (exec ?s ?x) ++ _) with (finish s x). rewrite app_assoc, !finish_app.
  destruct (exec (pstart, []) (pre ++ lead)) as [o1 s1]. cbn [fst snd].
  pose proof (exec_tokens mid s1) as Tm. destruct (exec s1 mid) as [o2 [st2 h2]]. cbn [fst snd] in *.
  apply trailing_suffixes in Lt.
  assert (Sh : shows_tokens o p [e] o2)
    by (exists [e']; split; [repeat constructor; exact Ti|]; cbn [flat_map]; rewrite app_nil_r, Tm; exact Tk).
  destruct ts as [|c0 ts].
  { cbn [map] in E. symmetry in E. apply app_eq_nil in E. destruct E as [_ E]. apply app_eq_nil in E. destruct E as [-> _].
    exists o1, o2, [], []. eexists. split; [reflexivity|]. split; [exact Sh|]. split; [intros []|].
    split; [reflexivity|]. exists [], []. reflexivity. }
  assert (Sp : still false post).
  { rewrite Lt in St. destruct (exists_last (l := suffixes 0 (c0 :: ts))) as (l0 & [g0 x0] & El); [discriminate|].
    rewrite El, map_app in St. cbn [map fst snd] in St. rewrite <- !app_assoc in St. cbn [app] in St.
    rewrite !app_assoc in St. exact (still_suffix _ _ _ _ _ St). }
  rewrite Lt, exec_suffixes. cbn [fst snd app].
  destruct (finish_held post st2 (h2 ++ suffixes 0 (c0 :: ts)) Sp) as (q & h & rest & more & -> & Nq & T & C).
  exists o1, o2, q, h, rest. split; [reflexivity|]. split; [exact Sh|]. split; [exact Nq|]. split; [exact T|].
  exists (map snd h2 ++ a), (b ++ more). rewrite C, map_app, suffix_texts, E, <- !app_assoc. reflexivity.
Qed.

(** The nodes of the file have their place in the layout. *)
Lemma fmt_frame anc fo e : exists f g, fmt o pc anc fo e = node_rule o anc e f g.
Proof.
  destruct e; try (rewrite fmt_args); try (eexists _, _; reflexivity).
Qed.
Lemma concl_tidy p fo m e e' : sort_of e <> SoElse -> concl o p fo m e e' -> tidy o p e e'.
Proof.
  intros N H. destruct e; try exact H; [|destruct (N eq_refl)]. cbn [concl] in H.
  destruct (fo_braced fo); [|exact H]. apply (T_if o p true); auto.
Qed.
Lemma trailing_tokens cs m os : glay m (trailing_comments cs) os -> optokens os = [].
Proof.
  intros L. apply trailing_suffixes in L. subst os. apply mild_tokens, Forall_forall. intros x I.
  apply in_map_iff in I. destruct I as (y & <- & _). exact Logic.I.
Qed.
Lemma glay_segment pre post anc p fo m e os : shaped e -> sort_of e <> SoElse -> agree anc p -> fits anc p fo e ->
  glay m (fmt o pc anc fo e) os -> segment p e (pre ++ os ++ post).
Proof.
  intros Sh N A F L. destruct (fmt_holds o pc Cp e Sh anc p fo m os A F L) as (e' & C & (Tk & _)).
  apply (concl_tidy p fo m e e' N) in C. destruct (fmt_frame anc fo e) as (f & g & E). rewrite E in L.
  unfold node_rule in L. destruct (suppressed o anc e) eqn:Es.
  - unfold verbatim in L. split_lay L. split_lay L. split_lay L. lay_nil L.
    exists pre, x, x0, x1, post, m. eexists _, _, e'. rewrite app_nil_r in *.
    split; [rewrite <- !app_assoc; reflexivity|]. split; [exact A0|]. split; [exact A2|].
    split; [right; split; [exact (suppressed_asked o anc e p (proj1 (proj2 A)) Es)|split; reflexivity]|].
    split; [exact C|]. rewrite !optokens_app, (trailing_tokens _ _ _ A2), app_nil_r in Tk.
    rewrite (mild_tokens x) in Tk by (apply (leading_mild _ _ _ A0)). exact Tk.
  - split_lay L. split_lay L. split_lay L. split_lay L. lay_nil L.
    exists pre, x, (x0 ++ x1), x2, post, m. eexists _, _, e'. rewrite app_nil_r in *.
    split; [rewrite <- !app_assoc; reflexivity|]. split; [exact A0|]. split; [exact A3|].
    split; [left; split; reflexivity|].
    split; [exact C|]. rewrite !optokens_app, (trailing_tokens _ _ _ A3), app_nil_r in Tk.
    rewrite (mild_tokens x) in Tk by (apply (leading_mild _ _ _ A0)). rewrite optokens_app. exact Tk.
Qed.

Lemma softly_segment r p y os : shaped y -> sort_of y <> SoElse -> inall (softly o pc p y) (root_doc o pc r) ->
  lay Expanded (root_doc o pc r) os -> segment p y os.
Proof.
  intros Sh N I L. destruct (inall_lay _ _ I _ _ L) as [d' [m' [pre [os' [post [S [L' ->]]]]]]].
  destruct S as [[anc [fo [A [F [_ ->]]]]]|[d0 [[anc [fo [A [F [_ ->]]]]] ->]]].
  - apply lay_glay in L'. exact (glay_segment pre post anc p fo m' y os' Sh N A F L').
  - apply lay_glay, glay_remove_soft in L'. exact (glay_segment pre post anc p fo Flat y os' Sh N A F L').
Qed.

(** An argument with comments. *)
Lemma argument_solid p x d : shaped x -> sort_of x = SoArg -> has_comments (notes_of x) = true ->
  (BesideSpec.hole x = true -> n_lead (notes_of x) <> []) -> found o pc p x d -> solid d = true.
Proof.
  intros Sh So Hc Ho Fd.
  assert (G : forall d0, lays o pc p x d0 -> solid d0 = true).
  { intros d0 (anc & fo & _ & _ & _ & ->). destruct x as [| | | | | | | | | | | | | | | | | |n nm v sl|]; try discriminate So.
    cbn [fmt]. cbn [notes_of] in *. unfold node_rule_soft. unfold node_rule.
    destruct (suppressed o anc (EArg n nm v sl)); [apply solid_verbatim|]. cbn [notes_of].
    destruct nm as [nm|]; [|destruct v as [v|]].
    - eapply solid_cat; [right; left; reflexivity|]. destruct Sh as [[A B] _]. unfold argument_fields.
      destruct v; cbn [cat solid]; rewrite fmt_solid; try reflexivity; try exact B; congruence.
    - eapply solid_cat; [right; left; reflexivity|]. destruct Sh as [_ [A B]]. unfold argument_fields.
      apply fmt_solid; [exact B|congruence].
    - specialize (Ho eq_refl). destruct (n_lead n) as [|c cs] eqn:E; [contradiction|].
      eapply solid_cat; [left; reflexivity|]. reflexivity. }
  destruct Fd as [L|(d0 & L & -> & _)]; [exact (G _ L)|]. rewrite solid_remove. exact (G _ L).
Qed.
Lemma argument_found p n k rc l x anc fo : shaped (EArgs n k rc l) -> In x l ->
  ~ table_args p (EArgs n k rc l) -> has_comments (notes_of x) = true ->
  (BesideSpec.hole x = true -> n_lead (notes_of x) <> []) ->
  agree anc p -> fits anc p fo (EArgs n k rc l) -> suppressed o anc (EArgs n k rc l) = false ->
  inall (found o pc p_item x) (fmt o pc anc fo (EArgs n k rc l)).
Proof.
  intros Sh I Nt HC Ho A F S. cbn [shaped] in Sh. destruct (all_of_In _ _ _ Sh I) as [So Shx].
  pose proof (fun d => argument_solid p_item x d Shx So HC Ho) as PS.
  rewrite fmt_args. apply inall_node; [exact S|].
  assert (G : inall (found o pc p_item x) (rule_call_like o n k rc (map (arg_info o pc anc) l))).
  { destruct x as [| | | | | | | | | | | | | | | | | |n0 nm v sl|]; try discriminate. cbn [notes_of] in *.
    apply (inall_call_like o _ PS n k rc _ (arg_info o pc anc (EArg n0 nm v sl))).
    - apply in_map, I.
    - intros s. unfold leading_hole. cbn [fst arg_info ai_node notes_of]. rewrite HC. apply andb_false_r.
    - cbn [arg_info ai_doc]. apply found0; [reflexivity|repeat split|discriminate].
    - intros L GL. exfalso. rewrite map_map in GL.
      unfold group_last in GL. rewrite (last_opt_map (fun x => ai_node (arg_info o pc anc x))) in GL.
      rewrite (last_opt_map (arg_info o pc anc)) in L.
      destruct (last_opt l) as [y|]; [|discriminate]. cbn [opt_map] in L, GL.
      assert (E : ai_node (arg_info o pc anc y) = EArg n0 nm v sl)
        by (injection L as L; rewrite L; reflexivity).
      rewrite E in GL. rewrite HC in GL. discriminate. }
  unfold rule_args. destruct k; try exact G.
  destruct F as [F _]. destruct (fo_table fo) as [[]|]; try exact G.
  exfalso. apply Nt. split; [exact (F eq_refl)|]. repeat eexists.
Qed.
Lemma argument_softly r p n k rc l x : root_shaped r -> in_file o r p (EArgs n k rc l) ->
  ~ skip_asked o p (EArgs n k rc l) -> ~ table_args p (EArgs n k rc l) -> In x l ->
  has_comments (notes_of x) = true -> (BesideSpec.hole x = true -> n_lead (notes_of x) <> []) ->
  inall (softly o pc p_item x) (root_doc o pc r).
Proof.
  intros Sh If Ns Nt I HC Ho. destruct (in_file_shaped o r p _ Sh If) as [She _].
  refine (inall_trans _ _ _ _ (in_file_softly o pc r p _ Sh If)).
  assert (G : forall d, lays o pc p (EArgs n k rc l) d -> inall (softly o pc p_item x) d).
  { intros d (anc & fo & A & F & _ & ->).
    assert (S : suppressed o anc (EArgs n k rc l) = false).
    { destruct (suppressed o anc (EArgs n k rc l)) eqn:E; [|reflexivity]. exfalso. apply Ns.
      exact (suppressed_asked o anc _ p (proj1 (proj2 A)) E). }
    refine (inall_trans _ _ _ _ (argument_found p n k rc l x anc fo She I Nt HC Ho A F S)).
    intros d [L|[d0 [L [-> _]]]]; apply IA_here; [left; exact L|right; exists d0; auto]. }
  intros d [L|(d0 & L & ->)]; [exact (G d L)|].
  apply inall_remove; [|exact (G d0 L)]. intros d' [L'|[d1 [L' ->]]]; right.
  - exists d'. auto.
  - exists d1. split; [exact L'|apply remove_soft_idem].
Qed.

(** A chain in a chain. *)
Lemma inner_spine p l p' y : inner_chain p l p' y -> forall anc dl tail, agree anc p -> shaped l -> sort_of l = SoExpr ->
  spine o pc anc l = (dl, tail) ->
  exists anc' t1 t2, agree anc' p' /\ shaped y /\ sort_of y = SoExpr /\ spine o pc anc' y = (dl, t1) /\ tail = t1 ++ t2.
Proof.
  assert (CC : forall op, is_chain_op op = chain_op (t_kind op)).
  { intros op. unfold is_chain_op, chain_op. destruct (t_kind op); reflexivity. }
  induction 1 as [p n l op r Ch|p n l op r p' x Ch H IH]; intros anc dl tail A Sh So Sp.
  - exists anc, tail, []. rewrite app_nil_r. auto.
  - cbn [spine] in Sp. rewrite CC, Ch in Sp. destruct (spine o pc (FBinary op :: anc) l) as [dl' tail'] eqn:ES.
    destruct Sh as [[Sl Shl] _].
    destruct (IH (FBinary op :: anc) dl' tail') as (anc' & t1 & t2 & A' & Sy & Soy & Sp' & ->);
      [apply agree_operand, A|exact Shl|exact Sl|exact ES|].
    pose proof (f_equal fst Sp) as E1. pose proof (f_equal snd Sp) as E2. cbn [fst snd] in E1, E2. subst dl' tail.
    exists anc', t1. rewrite <- app_assoc. eexists. split; [exact A'|]. split; [exact Sy|]. split; [exact Soy|].
    split; [exact Sp'|reflexivity].
Qed.
Lemma chain_segment p y anc dl t1 m x z : agree anc p -> shaped y -> sort_of y = SoExpr ->
  (exists n l op r, y = EBinary n l op r /\ chain_op (t_kind op) = true) ->
  spine o pc anc y = (dl, t1) -> glay m dl x -> glay m (cat (map chain_piece t1)) z ->
  forall pre post, segment p y (pre ++ (x ++ z) ++ post).
Proof.
  intros A Sh So (n & l & op & r & -> & Ch) Sp L1 L2 pre post.
  destruct (spine_shows o pc (S (esize (EBinary n l op r))) (EBinary n l op r)
    (fun x _ S => fmt_holds o pc Cp x S) anc p dl t1 m x z (le_n _) Sh So A Sp L1 L2) as (e' & Ti & (Tk & _)).
  assert (CC : is_chain_op op = true).
  { unfold is_chain_op, chain_op in *. destruct (t_kind op); try discriminate Ch; reflexivity. }
  cbn [spine] in Sp. rewrite CC in Sp. destruct (spine o pc (FBinary op :: anc) l) as [dl' tail'].
  pose proof (f_equal snd Sp) as E2. cbn [snd] in E2. subst t1.
  rewrite map_app in L2. apply glay_cat_app in L2. destruct L2 as [y1 [y2 [L2 [L3 ->]]]].
  cbn [map] in L3. split_lay L3. lay_nil L3. unfold chain_piece in A0. cbn [tp_enclosing tp_op tp_doc tp_right] in A0.
  split_lay A0. split_lay A0. split_lay A0. split_lay A0. split_lay A0. split_lay A0. lay_nil A0.
  assert (Nl : n_lead n = [] /\ x1 = []).
  { destruct (n_lead n); [|destruct A1]. destruct (n_dang n); [split; [reflexivity|exact A1]|destruct A1]. }
  destruct Nl as [Nl ->].
  exists pre, [], (x ++ y1 ++ x0 ++ x2 ++ x3 ++ x4), x5, post, m, [], (n_trail n), e'.
  split; [rewrite !app_nil_r, <- !app_assoc; reflexivity|]. split; [reflexivity|]. split; [exact A6|].
  split; [left; cbn [notes_of]; auto|]. split; [exact Ti|].
  rewrite !optokens_app in *. rewrite (trailing_tokens _ _ _ A6) in Tk. cbn [optokens flat_map app] in Tk.
  rewrite !app_nil_r in Tk. exact Tk.
Qed.
Lemma inner_chain_node p l p' y : inner_chain p l p' y -> exists n l op r, y = EBinary n l op r /\ chain_op (t_kind op) = true.
Proof. induction 1; [repeat eexists; assumption|assumption]. Qed.
Lemma inner_segment r p n l op x p' y os : root_shaped r -> in_file o r p (EBinary n l op x) ->
  ~ skip_asked o p (EBinary n l op x) -> chain_op (t_kind op) = true ->
  inner_chain (p_operand (q_eq p) op false) l p' y -> lay Expanded (root_doc o pc r) os -> segment p' y os.
Proof.
  intros Sh If Ns Ch Ic L. destruct (in_file_shaped o r p _ Sh If) as [She _]. destruct She as [[Sl Shl] _].
  destruct (in_file_segment o pc r p _ os Sh If L) as (anc & fo & m & pre & os' & post & A & F & L' & ->).
  assert (Cc : classify (t_kind op) = Chain) by (apply chain_op_class, Ch).
  rewrite fmt_chain in L' by exact Cc.
  assert (S : suppressed o anc (EBinary n l op x) = false).
  { destruct (suppressed o anc (EBinary n l op x)) eqn:E; [|reflexivity]. exfalso. apply Ns.
    exact (suppressed_asked o anc _ p (proj1 (proj2 A)) E). }
  unfold node_rule_soft, node_rule in L'. rewrite S in L'.
  split_lay L'. split_lay L'. split_lay L'. split_lay L'. lay_nil L'.
  destruct (spine o pc (FBinary op :: anc) l) as [dl tail] eqn:ES.
  destruct (inner_spine _ _ _ _ Ic (FBinary op :: anc) dl tail (agree_operand _ _ _ _ A) Shl Sl ES)
    as (anc' & t1 & t2 & A' & Sy & Soy & Sp' & ->).
  unfold rule_chain in A1. destruct A1 as [m1 A1]. cbv zeta in A1. split_lay A1.
  assert (X : glay m1 (cat (map chain_piece ((t1 ++ t2) ++ [ {| tp_op := op; tp_right := x;
    tp_doc := fmt o pc (FBinary op :: anc) fo0 x; tp_enclosing := None |} ]))) y0).
  { destruct (fo_left fo); [exact A1|]. unfold indent in A1. rewrite solid_not_nil in A1; [exact A1|].
    eapply solid_cat; [apply in_map, in_or_app; right; left; reflexivity|].
    apply (solid_cat (token_doc op)); [right; right; left; reflexivity|reflexivity]. }
  clear A1. rewrite <- app_assoc, map_app in X. apply glay_cat_app in X. destruct X as (z1 & z2 & Z1 & Z2 & ->).
  pose proof (chain_segment p' y anc' dl t1 m1 x4 z1 A' Sy Soy (inner_chain_node _ _ _ _ Ic) Sp' A4 Z1
    (pre ++ x0) (z2 ++ x2 ++ x3 ++ post)) as G.
  rewrite <- !app_assoc in *. exact G.
Qed.

Lemma has_lead n : n_lead n <> [] \/ n_trail n <> [] -> has_comments n = true.
Proof. unfold has_comments. destruct (n_lead n), (n_dang n), (n_trail n); try reflexivity. intros [H|H]; contradiction. Qed.
Lemma laid_segment r p e os : root_shaped r -> laid_out o r p e -> n_lead (notes_of e) <> [] \/ n_trail (notes_of e) <> [] ->
  lay Expanded (root_doc o pc r) os -> segment p e os.
Proof.
  intros Sh La Hc L. destruct La as [p e If So|p n k rc l x If Ns Nt I Ho|p n l op x p' y If Ns Ch Ic].
  - exact (softly_segment r p e os (proj1 (in_file_shaped o r p e Sh If)) So (in_file_softly o pc r p e Sh If) L).
  - destruct (in_file_shaped o r p _ Sh If) as [She _]. cbn [shaped] in She. destruct (all_of_In _ _ _ She I) as [So Shx].
    refine (softly_segment r p_item x os Shx _ (argument_softly r p n k rc l x Sh If Ns Nt I (has_lead _ Hc) Ho) L). congruence.
  - exact (inner_segment r p n l op x p' y os Sh If Ns Ch Ic L).
Qed.
Theorem laid_above r p e w l out : root_shaped r -> laid_out o r p e -> BodySpec.holds w (n_lead (notes_of e)) l ->
  l <> [] -> w = false \/ ~ skip_asked o p e -> prints (root_doc o pc r) out -> shown_above o p e l out.
Proof.
  intros Sh La H Ne Q (os & L & ->). refine (segment_above p e os w l _ H Q). apply (laid_segment r); auto.
  left. destruct H as (x & y & z & -> & <- & _). destruct x, y; try discriminate. contradiction.
Qed.
Theorem laid_behind r p e w l out : root_shaped r -> laid_out o r p e -> BodySpec.holds w (n_trail (notes_of e)) l ->
  l <> [] -> w = false \/ ~ skip_asked o p e -> prints (root_doc o pc r) out -> shown_behind o p e l out.
Proof.
  intros Sh La H Ne Q (os & L & ->).
  refine (segment_behind p e os w l (root_still o pc r os L) _ H Q). apply (laid_segment r); auto.
  right. destruct H as (x & y & z & -> & <- & _). destruct x, y; try discriminate. contradiction.
Qed.

(** Between brackets. *)
Lemma dangling_mild cs m : forall os, glay m (dangling_content cs) os ->
  Forall mild os /\ flat_map step_words os = map c_text cs.
Proof.
  induction cs as [|c cs IH]; intros os L; [cbn in L; subst; split; constructor|].
  destruct cs as [|c1 cs].
  - cbn [dangling_content] in L. split_lay L. split_lay L. lay_nil L. cbn [glay] in A, A0. subst. split; [repeat constructor|reflexivity].
  - change (dangling_content (c :: c1 :: cs)) with
      (cat [ DWord (WComment (c_text c)); DLine LHard; dangling_content (c1 :: cs) ]) in L.
    split_lay L. split_lay L. split_lay L. lay_nil L. cbn [glay] in A, A0. subst. destruct (IH _ A1) as [M Wd].
    rewrite app_nil_r. cbn [app]. split; [repeat constructor; exact M|]. cbn [flat_map step_words app map] in *. rewrite Wd. reflexivity.
Qed.
Lemma line_mild b m os : glay m (DLine b) os -> Forall mild os /\ flat_map step_words os = [].
Proof. destruct b, m; cbn; intros ->; split; repeat constructor. Qed.
Lemma indent_mild l d m os ws : (forall u, glay m d u -> Forall mild u /\ flat_map step_words u = ws) ->
  glay m (DCat (DIndent (DCat (DLine l) d)) (DCat (DLine l) DNil)) os -> Forall mild os /\ flat_map step_words os = ws.
Proof.
  intros D L. split_lay L. split_lay L. lay_nil L. cbn [glay] in A. split_lay A.
  destruct (line_mild _ _ _ A0) as [M1 W1]. destruct (line_mild _ _ _ A1) as [M2 W2]. destruct (D _ A) as [M3 W3].
  rewrite app_nil_r, !flat_map_app, W1, W2, W3, app_nil_r. split; [|reflexivity].
  apply Forall_app. split; [apply Forall_app; split; assumption|assumption].
Qed.
Lemma brackets_shown a b m d os pre post ws : (forall m u, glay m d u -> Forall mild u /\ flat_map step_words u = ws) ->
  glay m (cat [token_doc a; d; token_doc b]) os ->
  shown_inside (norm_token a) (norm_token b) ws (run (pre ++ os ++ post)).
Proof.
  intros D L. split_lay L. split_lay L. split_lay L. lay_nil L. cbn [glay token_doc] in A, A1.
  unfold token_doc in A, A1. cbn [glay] in A, A1. subst. destruct (D _ _ A0) as [M Wd].
  rewrite run_exec. change (fst (exec ?s ?x) ++ _) with (finish s x). rewrite app_nil_r, <- !app_assoc, !finish_app.
  destruct (exec (pstart, []) pre) as [o1 [s1 h1]]. cbn [fst snd].
  cbn [exec fst snd print_step].
  match goal with |- context [exec ?s x0] => pose proof (mild_exec x0 M s) as Am; pose proof (exec_tokens x0 s) as Tk;
    destruct (exec s x0) as [o2 [s2 h2]] end.
  cbn [exec fst snd print_step] in *. rewrite (mild_tokens _ M) in Tk.
  exists (o1 ++ (if p_space s1 then [PSpace] else [])), (o2 ++ (if p_space s2 then [PSpace] else [])). eexists.
  split; [rewrite ?app_nil_r, <- ?app_assoc; cbn [app]; rewrite <- ?app_assoc; reflexivity|].
  split; [rewrite ptokens_app, Tk; destruct (p_space s2); reflexivity|]. rewrite <- Wd, pcomments_app. apply among_back, Am.
Qed.
Lemma dangling_soft_mild cs m u : glay m (dangling_soft cs) u -> Forall mild u /\ flat_map step_words u = map c_text cs.
Proof.
  unfold dangling_soft. destruct cs as [|c cs]; [intros L; cbn in L; subst; split; constructor|].
  intros [m' L]. unfold soft_block_indent in L.
  destruct (is_nil (dangling_content (c :: cs))) eqn:E; [destruct cs; discriminate E|].
  refine (indent_mild _ _ m' u _ _ L). intros v. apply dangling_mild.
Qed.
Lemma dangling_block_mild cs m u : glay m (dangling_block cs) u -> Forall mild u /\ flat_map step_words u = map c_text cs.
Proof.
  unfold dangling_block. destruct cs as [|c cs]; [intros L; cbn in L; subst; split; constructor|].
  intros L. unfold block_indent in L.
  destruct (is_nil (dangling_content (c :: cs))) eqn:E; [destruct cs; discriminate E|].
  refine (indent_mild _ _ m u _ _ L). intros v. apply dangling_mild.
Qed.
Theorem inside_shown r p e n a b out : root_shaped r -> in_file o r p e -> ~ skip_asked o p e ->
  (exists k rc, e = EArgs n k rc [] /\ a = l_token k /\ b = r_token k) \/ (e = EParams n [] /\ a = tLPAREN /\ b = tRPAREN) \/
  (e = EBraced n [] /\ a = tLCURLY /\ b = tRCURLY) ->
  prints (root_doc o pc r) out -> shown_inside a b (map c_text (n_dang n)) out.
Proof.
  intros Sh If Ns K (os & L & ->).
  destruct (in_file_segment o pc r p _ os Sh If L) as (anc & fo & m & pre & os' & post & A & F & L' & ->).
  assert (S : suppressed o anc e = false).
  { destruct (suppressed o anc e) eqn:E; [|reflexivity]. exfalso. apply Ns.
    exact (suppressed_asked o anc _ p (proj1 (proj2 A)) E). }
  assert (G : forall f g, fmt o pc anc fo e = node_rule o anc e f g ->
    (forall m os, glay m f os -> forall pre post, shown_inside a b (map c_text (n_dang n)) (run (pre ++ os ++ post))) ->
    shown_inside a b (map c_text (n_dang n)) (run (pre ++ os' ++ post))).
  { intros f g E H. rewrite E in L'. unfold node_rule in L'. rewrite S in L'.
    split_lay L'. split_lay L'. split_lay L'. split_lay L'. lay_nil L'.
    specialize (H _ _ A1 (pre ++ x) (x1 ++ x2 ++ post)). rewrite app_nil_r, <- !app_assoc in *. exact H. }
  destruct K as [(k & rc & -> & -> & ->)|[(-> & -> & ->)|(-> & -> & ->)]].
  - eapply G; [apply fmt_args|]. intros m' u U pre' post'.
    replace (l_token k) with (norm_token (l_token k)) by (destruct k; reflexivity).
    replace (r_token k) with (norm_token (r_token k)) by (destruct k; reflexivity).
    apply (brackets_shown _ _ m' (dangling_soft (n_dang n))); [intros; eapply dangling_soft_mild; eassumption|].
    unfold rule_args in U. cbn [map] in U. destruct k; try exact U. destruct (fo_table fo) as [[]|]; exact U.
  - eapply G; [reflexivity|]. intros m' u U pre' post'.
    apply (brackets_shown tLPAREN tRPAREN m' (dangling_soft (n_dang n))); [intros; eapply dangling_soft_mild; eassumption|exact U].
  - eapply G; [reflexivity|]. intros m' u U pre' post'. cbn [variant_of] in U.
    apply (brackets_shown tLCURLY tRCURLY m' (dangling_block (n_dang n))); [intros; eapply dangling_block_mild; eassumption|].
    destruct (n_dang n) eqn:E; cbn [rule_braced] in U; [|rewrite E in U; exact U].
    split_lay U. split_lay U. lay_nil U. exists x, (x0 ++ []). split; [exact A0|]. split; [|reflexivity].
    exists [], (x0 ++ []). split; [reflexivity|]. split; [|reflexivity]. exists x0, []. split; [exact A1|]. split; reflexivity.
Qed.
End Shown.
