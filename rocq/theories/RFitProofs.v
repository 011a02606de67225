(** R reads a node in the source as it reads the same text in the output. *)
From Coq Require Import List NArith Bool Arith Lia String.
From Verif Require Import Text TextFacts LineEndingSpec SettingsModel SyntaxKind DirectiveModel FmtTree IrModel FmtSpec FmtPathSpec
  FmtFactProofs ParseModel ParseSpec ParseProofs ParseTree CommentsModel CommentsSpec AstModel AstReads FactorySpec FrontProofs
  LexSpec LexProofs LexRunProofs LexAlignProofs LexSourceSpec LexSourceProofs SourceSpec GrammarProofs
  RReadSpec FmtLineSpec FmtLineProofs RTextSpec RNestProofs RRunProofs RTreeProofs RWideProofs RSliceProofs RTailProofs RNormProofs RCutProofs.
Import ListNotations.
Local Open Scope nat_scope.

(** * Steps over tokens *)

Definition steps (x : list (token * bool)) (c : context) (h : bool) (c' : context) (h' : bool) : Prop :=
  (forall A b, words_of (A ++ flag b x) = words_of A ++ words_of x) /\
  forall s, RReadSpec.around s = c -> exists s', opened_by (s, h) (words_of x) = Some (s', h') /\ RReadSpec.around s' = c'.

Lemma flag_app b x y : flag b (x ++ y) = flag b x ++ flag (match x with [] => b | _ => false end) y.
Proof. destruct x as [|[t f] x]; [reflexivity|]. cbn [app flag]. destruct y as [|[u g] y]; reflexivity. Qed.
Lemma flag_length b l : List.length (flag b l) = List.length l.
Proof. destruct l as [|[t f] l]; reflexivity. Qed.
Lemma flag_flag b l : flag b (flag true l) = flag true l.
Proof. destruct l as [|[t f] l]; [reflexivity|]. cbn [flag]. rewrite orb_true_r. reflexivity. Qed.
Lemma flag_words b l : nested l -> words_of (flag b l) = words_of l.
Proof.
  intros N. unfold words_of. rewrite (proj2 (nested_flag b _ N)). destruct (marked_lexemes l) as [|[? ?] ?]; reflexivity.
Qed.
Lemma nested_words x A b : nested x -> words_of (A ++ flag b x) = words_of A ++ words_of x.
Proof. intros N. rewrite (words_app _ _ (proj1 (nested_flag b _ N))), (flag_words b x N). reflexivity. Qed.

Lemma steps_nil c h : steps [] c h c h.
Proof. split; [intros A b; rewrite !app_nil_r; reflexivity|]. intros s E. exists s. auto. Qed.
Lemma steps_cool x c : cool x -> steps x c false c false.
Proof. intros [N C]. split; [intros A b; exact (nested_words x A b N)|]. intros s E. exists s. rewrite C. auto. Qed.
Lemma steps_app x y c h c1 h1 c2 h2 : steps x c h c1 h1 -> steps y c1 h1 c2 h2 -> steps (x ++ y) c h c2 h2.
Proof.
  intros [Wx X] [Wy Y].
  assert (W : words_of (x ++ y) = words_of x ++ words_of y).
  { specialize (Wy x false). replace (flag false y) with y in Wy by (destruct y as [|[? ?] ?]; reflexivity). exact Wy. }
  split.
  - intros A b. rewrite flag_app, app_assoc, Wy, Wx, W, app_assoc. reflexivity.
  - intros s E. destruct (X s E) as (s1 & O1 & E1). destruct (Y s1 E1) as (s2 & O2 & E2).
    exists s2. rewrite W, opened_by_app, O1. auto.
Qed.
Lemma plain_words t b A b' : (forall m b, add_token m (t, b) = m ++ [(t_text t, b)]) ->
  words_of (A ++ flag b' [(t, b)]) = words_of A ++ words_of [(t, b)].
Proof.
  intros K. unfold words_of, marked_lexemes. rewrite fold_left_app. cbn [flag fold_left]. rewrite !K, map_app. reflexivity.
Qed.
Lemma steps_round c h : steps [inline tLPAREN] c h InRound false.
Proof.
  split; [intros A b; apply plain_words; reflexivity|]. intros s E. destruct h.
  - exists (OHead :: s). split; reflexivity.
  - exists (ORound :: s). split; reflexivity.
Qed.
Lemma steps_open k c h : steps [inline (l_token k)] c h InRound false.
Proof.
  destruct k; [apply steps_round| |]; (split; [intros A b; apply plain_words; reflexivity|]); intros s E.
  - exists (OSquare :: s). destruct h; split; reflexivity.
  - exists (OSquare :: OSquare :: s). destruct h; split; reflexivity.
Qed.
Lemma steps_curly c : steps [inline tLCURLY] c false InBraces false.
Proof.
  split; [intros A b; apply plain_words; reflexivity|]. intros s E. exists (OCurly :: s). split; reflexivity.
Qed.
Lemma steps_header t c : flat_token t -> role_of (t_kind t) = RoHeader -> steps [inline t] c false c true.
Proof.
  intros [F [K C]] R. split; [intros A b; apply nested_words; constructor; assumption|].
  intros s E. exists s. unfold inline. rewrite (words_flat t false F). cbn [opened_by]. rewrite (flat_opened _ t F K).
  cbn [fst]. unfold is_header. rewrite K, R. auto.
Qed.
Lemma steps_flat t c : flat_token t -> role_of (t_kind t) <> RoHeader -> steps [inline t] c false c false.
Proof. intros F R. apply steps_cool, flat_cool; assumption. Qed.
Lemma steps_head t c : flat_token t -> steps [inline t; inline tLPAREN] c false InRound false.
Proof.
  intros F. change [inline t; inline tLPAREN] with ([inline t] ++ [inline tLPAREN]).
  destruct (role_of (t_kind t)) eqn:R.
  all: try (eapply steps_app; [apply (steps_flat t c F); rewrite R; discriminate|apply steps_round]).
  eapply steps_app; [exact (steps_header t c F R)|apply steps_round].
Qed.

Section Fit.
Variables (pr : list (token * bool)).
(** The tokens [l] of the program, with [g] before, stand in [c]. *)
Definition seg (c : context) (g : nat) (h : bool) (l : list (token * bool)) : Prop :=
  exists A b B S, pr = A ++ flag b l ++ B /\ List.length A = g /\
    opened_by ([], false) (words_of A) = Some (S, h) /\ RReadSpec.around S = c.

Lemma seg_at c g h l x m y c' h' g' : seg c g h l -> l = x ++ m ++ y -> steps x c h c' h' ->
  g' = g + List.length x -> seg c' g' h' m.
Proof.
  intros (A & b & B & S & E & L & O & C) -> [W X] ->. destruct (X S C) as (S' & O' & C').
  rewrite !flag_app in E. set (b1 := match x with [] => b | _ => false end) in E.
  set (b2 := match m with [] => b1 | _ => false end) in E. exists (A ++ flag b x), b1, (flag b2 y ++ B), S'.
  split; [rewrite E, <- !app_assoc; reflexivity|]. split; [rewrite app_length, flag_length, L; reflexivity|].
  split; [|exact C']. rewrite W, opened_by_app, O. exact O'.
Qed.
Lemma seg_flag c g h l : seg c g h (flag true l) -> seg c g h l.
Proof. intros (A & b & B & S & E & R). rewrite flag_flag in E. exists A, true, B, S. auto. Qed.

Lemma wide_lines e : List.length (lines e) = List.length (etokens e).
Proof. rewrite <- lines_tokens, map_length. reflexivity. Qed.

Lemma commas_at (R : list (nat * expr)) (Q : expr -> Prop) l : forall g, Forall (fun x => cool (lines x)) l ->
  seg InRound g false (listed_by_commas (map lines l)) -> incl (row nodes 1 g l) R ->
  (forall x g', In x l -> seg InRound g' false (lines x) -> incl (nodes g' x) R -> Q x) -> Forall Q l.
Proof.
  induction l as [|x l IH]; intros g C Sg Inc H; [constructor|]. inversion C as [|? ? Cx Cl]; subst.
  cbn [row] in Inc. fold (row nodes 1) in Inc. apply incl_app_inv in Inc as [I1 I2].
  constructor.
  - apply (H x g); [left; reflexivity| |exact I1]. cbn [map] in Sg. destruct l as [|y l].
    + exact Sg.
    + eapply (seg_at _ _ _ _ [] (lines x)); [exact Sg|reflexivity|apply steps_nil|cbn; lia].
  - destruct l as [|y l]; [constructor|]. eapply IH; [exact Cl| |exact I2|intros z g' Hz; apply H; right; exact Hz].
    cbn [map] in Sg |- *. eapply (seg_at _ _ _ _ (lines x ++ [inline tCOMMA]) _ []); [exact Sg| | |].
    + rewrite app_nil_r, <- app_assoc. reflexivity.
    + eapply steps_app; [apply steps_cool; exact Cx|]. apply steps_flat; [repeat split|discriminate].
    + rewrite app_length, wide_lines. cbn. lia.
Qed.
Lemma flagged_at c (R : list (nat * expr)) (Q : expr -> Prop) l : forall g, Forall (fun x => cool (lines x)) l ->
  seg c g false (List.concat (map (flag true) (map lines l))) -> incl (row nodes 0 g l) R ->
  (forall x g', In x l -> seg c g' false (lines x) -> incl (nodes g' x) R -> Q x) -> Forall Q l.
Proof.
  induction l as [|x l IH]; intros g C Sg Inc H; [constructor|]. inversion C as [|? ? Cx Cl]; subst.
  cbn [row] in Inc. fold (row nodes 0) in Inc. apply incl_app_inv in Inc as [I1 I2]. cbn [map List.concat] in Sg.
  assert (St : steps (flag true (lines x)) c false c false).
  { destruct (steps_cool _ c Cx) as [W X]. destruct Cx as [N _]. split.
    - intros A b. rewrite flag_flag, (flag_words true _ N). apply W.
    - rewrite (flag_words true _ N). exact X. }
  constructor.
  - apply (H x g); [left; reflexivity| |exact I1]. apply seg_flag.
    eapply (seg_at _ _ _ _ [] (flag true (lines x))); [exact Sg|reflexivity|apply steps_nil|cbn; lia].
  - eapply IH; [exact Cl| |exact I2|intros z g' Hz; apply H; right; exact Hz].
    eapply (seg_at _ _ _ _ _ _ []); [exact Sg|rewrite app_nil_r; reflexivity|exact St|].
    rewrite flag_length, wide_lines. lia.
Qed.
Lemma statements_at c (R : list (nat * expr)) (Q : expr -> Prop) l g : Forall (fun x => cool (lines x)) l ->
  seg c g false (statements (map lines l)) -> incl (row nodes 0 g l) R ->
  (forall x g', In x l -> seg c g' false (lines x) -> incl (nodes g' x) R -> Q x) -> Forall Q l.
Proof.
  destruct l as [|x l]; intros C Sg Inc H; [constructor|]. inversion C as [|? ? Cx Cl]; subst.
  cbn [row] in Inc. fold (row nodes 0) in Inc. apply incl_app_inv in Inc as [I1 I2]. cbn [map statements] in Sg.
  constructor.
  - apply (H x g); [left; reflexivity| |exact I1].
    eapply (seg_at _ _ _ _ [] (lines x)); [exact Sg|reflexivity|apply steps_nil|cbn; lia].
  - eapply flagged_at; [exact Cl| |exact I2|intros z g' Hz; apply H; right; exact Hz].
    eapply (seg_at _ _ _ _ _ _ []); [exact Sg|rewrite app_nil_r; reflexivity|apply steps_cool; exact Cx|].
    rewrite wide_lines. lia.
Qed.
End Fit.

(** * The tree *)

(** Nodes that only stand in parentheses or brackets. *)
Definition roundly (c0 c : context) (e : expr) : Prop :=
  match sort_of e with SoArg | SoName | SoParam | SoDefault => c0 = InRound /\ c = InRound | _ => True end.

Lemma lines_some e : shaped e -> sort_of e <> SoArg -> lines e <> [].
Proof.
  intros S N. destruct (sort_of e) eqn:So; try contradiction; try (exact (lines_nonempty e S So)); destruct e; try discriminate So; cbn [lines]; try discriminate.
  - destruct S as [[So1 S1] _]. pose proof (lines_nonempty _ S1 So1) as H. destruct (lines e); [contradiction|discriminate].
  - destruct (lines e); discriminate.
Qed.
Lemma finish_cool e : finish e -> cool (lines e).
Proof. unfold finish. destruct (sort_of e); intros F; try exact (ends_cool _ F); exact (proj1 F). Qed.

Section Tree.
Variables (o : format_options) (src : text) (U : list unit) (toks : list parts) (rest : text) (pr : list (token * bool))
  (is : list item) (stF : rstate) (R : list (nat * expr)).
Hypothesis Src : src = all_text U ++ rest.
Hypothesis Uok : Forall unit_ok U.
Hypothesis Utr : units_trivia U rest.
Hypothesis Ual : aligned Between (all_text U ++ rest) (all_lex U ++ []).
Hypothesis Tok : map token_of toks = map fst pr.
Hypothesis Is : RReadSpec.items src = Some is.
Hypothesis Run : r_items r_start is = Some (marked_lexemes pr, stF).
Hypothesis Norm : Forall (fun y => reads_normed (snd y)) R.
Hypothesis Cuts : Forall (cut_at U toks) R.

Lemma node_kept c0 c g h e : seg pr c0 g h (lines e) -> incl (nodes g e) R -> shaped e -> everywhere node_read e -> finish e ->
  stays o c0 c e -> (h = true -> bracketed e) -> roundly c0 c e -> copied o e -> fitting c e.
Proof.
  intros (A & b & B & S & E & L & O & C) Inc Sh Rd Fi St Hd Ro Cp.
  assert (Cut : cut_at U toks (g, e)).
  { rewrite Forall_forall in Cuts. apply Cuts, Inc. destruct e; left; reflexivity. }
  assert (Nm : reads_normed e).
  { rewrite Forall_forall in Norm. apply (Norm (g, e)), Inc. destruct e; left; reflexivity. }
  assert (Rnd : lines e = [] \/ sort_of e = SoArg \/ sort_of e = SoName -> c0 = InRound /\ c = InRound).
  { intros H. unfold roundly in Ro. destruct H as [H|[H|H]].
    - destruct (sort_of e) eqn:So; try exact Ro; exfalso; refine (lines_some e Sh _ H); rewrite So; discriminate.
    - rewrite H in Ro. exact Ro.
    - rewrite H in Ro. exact Ro. }
  assert (Br : bracketed e -> fitting c e).
  { intros Be. apply (node_fits src U toks rest pr is stF Src Uok Utr Ual Tok Is Run c g e A b B S h Cut E L Sh Rd Nm Fi O); [|auto].
    intros H. apply Rnd, H. }
  assert (Wd : wider c0 c -> fitting c e).
  { intros W. destruct h; [apply Br, Hd; reflexivity|].
    apply (fitting_wider c0 c e W (proj1 (tree_sound e Sh Rd))).
    apply (node_fits src U toks rest pr is stF Src Uok Utr Ual Tok Is Run c0 g e A b B S false Cut E L Sh Rd Nm Fi O); [|auto].
    intros H. apply Rnd, H. }
  destruct Cp as [Cp|[Cp|(n & rc & items & ->)]].
  - destruct (St (or_introl Cp)); auto.
  - destruct (St (or_intror Cp)); auto.
  - apply Br. exact Logic.I.
Qed.

Let Q : context -> context -> expr -> Prop := fun _ c e => copied o e -> fitting c e.

Lemma tree_kept e : forall c0 c g h, tame (stays o) c0 c e -> shaped e -> everywhere node_read e ->
  seg pr c0 g h (lines e) -> incl (nodes g e) R -> (h = true -> sort_of e = SoParams) -> roundly c0 c e -> tame Q c0 c e.
Proof.
  assert (Inw : forall x, shaped x -> everywhere node_read x -> nested (lines x)).
  { intros x A B. exact (inward_nested _ (proj1 (tree_sound x A B))). }
  assert (Cool : forall c0 c x, tame (stays o) c0 c x -> shaped x -> everywhere node_read x -> cool (lines x)).
  { intros c0 c x A B C. exact (finish_cool _ (tree_finish (stays o) x c0 c A B C)). }
  assert (Own : forall c0 c g h e, tame (stays o) c0 c e -> shaped e -> everywhere node_read e ->
    seg pr c0 g h (lines e) -> incl (nodes g e) R -> (h = true -> sort_of e = SoParams) -> roundly c0 c e ->
    match e with EParams _ _ | EBraced _ _ | EArgs _ _ _ _ => True | _ => n_dang (notes_of e) = [] end /\ Q c0 c e).
  { intros c0 c g h x T S Rd Sg Inc Hd Ro.
    assert (D : match x with EParams _ _ | EBraced _ _ | EArgs _ _ _ _ => True | _ => n_dang (notes_of x) = [] end /\ stays o c0 c x)
      by (destruct x; exact (proj1 T)).
    split; [exact (proj1 D)|]. intros Cp.
    apply (node_kept c0 c g h x Sg Inc S Rd (tree_finish (stays o) x c0 c T S Rd) (proj2 D)); [|exact Ro|exact Cp].
    intros Hh. specialize (Hd Hh). destruct x; try discriminate Hd. exact Logic.I. }
  induction e as [n k ts|n op a IH|n l op r IHl IHr|n l op r IHl IHr|n l op r IHl IHr
    |n name ps b IHp IHb|n items IH|n a d IHa IHd|n v IH|n c1 t el IHc IHt IHe|n nl a IH
    |n v s b IHv IHs IHb|n c1 b IHc IHb|n b IH|n es IH|n b IH|n f args IHf IHa|n k rc items IH
    |n nm v sl IHn IHv|n nm IH] using expr_ind'; intros c0 c g h T S Rd Sg Inc Hd Ro;
    pose proof (Own c0 c g h _ T S Rd Sg Inc Hd Ro) as Ow; cbn [tame]; (split; [exact Ow|]); clear Ow;
    destruct T as [_ T], Rd as [Rn Rd]; cbn [shaped everywhere node_read nodes lines sort_of] in S, Rn, Rd, Inc, Sg, Hd;
    apply incl_cons_inv in Inc as [_ Inc];
    try (assert (h = false) as -> by (destruct h; [specialize (Hd eq_refl); discriminate Hd|reflexivity])); clear Hd.
  - exact T.
  - destruct Rn as [Rn _], S as [So S], T as [To [Tu T]]. split; [exact To|]. split; [exact Tu|].
    eapply (IH c0 c (g + 1) false T S Rd); [|exact Inc|discriminate|unfold roundly; rewrite So; exact Logic.I].
    eapply (seg_at _ _ _ _ _ [inline op] _ []); [exact Sg|rewrite app_nil_r; reflexivity|apply steps_flat; [exact Rn|rewrite To; discriminate]|reflexivity].
  - destruct Rn as [Rn _], S as [[So1 S1] [So2 S2]], Rd as [R1 R2], T as [To [T1 T2]]. apply incl_app_inv in Inc as [I1 I2].
    split; [exact To|]. split.
    + eapply (IHl c0 c g false T1 S1 R1); [|exact I1|discriminate|unfold roundly; rewrite So1; exact Logic.I].
      eapply (seg_at _ _ _ _ _ [] (lines l)); [exact Sg|reflexivity|apply steps_nil|cbn; lia].
    + eapply (IHr c0 c _ false T2 S2 R2); [|exact I2|discriminate|unfold roundly; rewrite So2; exact Logic.I].
      eapply (seg_at _ _ _ _ _ (lines l ++ [inline op]) _ []); [exact Sg|rewrite app_nil_r, <- app_assoc; reflexivity| |rewrite app_length, wide_lines; cbn; lia].
      eapply steps_app; [exact (steps_cool _ _ (Cool _ _ _ T1 S1 R1))|apply steps_flat; [exact Rn|rewrite To; discriminate]].
  - destruct Rn as [Rn _], S as [[So1 S1] [So2 S2]], Rd as [R1 R2], T as [To [T1 T2]]. apply incl_app_inv in Inc as [I1 I2].
    split; [exact To|]. split.
    + eapply (IHl c0 c g false T1 S1 R1); [|exact I1|discriminate|unfold roundly; rewrite So1; exact Logic.I].
      eapply (seg_at _ _ _ _ _ [] (lines l)); [exact Sg|reflexivity|apply steps_nil|cbn; lia].
    + eapply (IHr c0 c _ false T2 S2 R2); [|exact I2|discriminate|unfold roundly; rewrite So2; exact Logic.I].
      eapply (seg_at _ _ _ _ _ (lines l ++ [inline op]) _ []); [exact Sg|rewrite app_nil_r, <- app_assoc; reflexivity| |rewrite app_length, wide_lines; cbn; lia].
      eapply steps_app; [exact (steps_cool _ _ (Cool _ _ _ T1 S1 R1))|apply steps_flat; [exact Rn|rewrite To; discriminate]].
  - destruct Rn as [Rn _], S as [[So1 S1] [So2 S2]], Rd as [R1 R2], T as [To [T1 [T2 T3]]]. apply incl_app_inv in Inc as [I1 I2].
    split; [exact To|]. split; [|split; [|exact T3]].
    + eapply (IHl c0 c g false T1 S1 R1); [|exact I1|discriminate|unfold roundly; rewrite So1; exact Logic.I].
      eapply (seg_at _ _ _ _ _ [] (lines l)); [exact Sg|reflexivity|apply steps_nil|cbn; lia].
    + eapply (IHr c0 c _ false T2 S2 R2); [|exact I2|discriminate|unfold roundly; rewrite So2; exact Logic.I].
      eapply (seg_at _ _ _ _ _ (lines l ++ [inline op]) _ []); [exact Sg|rewrite app_nil_r, <- app_assoc; reflexivity| |rewrite app_length, wide_lines; cbn; lia].
      eapply steps_app; [exact (steps_cool _ _ (Cool _ _ _ T1 S1 R1))|apply steps_flat; [exact Rn|rewrite To; discriminate]].
  - destruct Rn as [Rn _], S as [[So1 S1] [So2 S2]], Rd as [R1 R2], T as [To [T1 T2]]. apply incl_app_inv in Inc as [I1 I2].
    split; [exact To|]. split.
    + eapply (IHp c0 c _ true T1 S1 R1); [|exact I1|intros _; exact So1|unfold roundly; rewrite So1; exact Logic.I].
      eapply (seg_at _ _ _ _ _ [inline name] (lines ps) (lines b)); [exact Sg|reflexivity|exact (steps_header name c0 Rn To)|cbn; lia].
    + eapply (IHb c0 (body_context c) _ false T2 S2 R2); [|exact I2|discriminate|unfold roundly; rewrite So2; exact Logic.I].
      eapply (seg_at _ _ _ _ _ (inline name :: lines ps) _ []); [exact Sg|rewrite app_nil_r; reflexivity| |cbn [List.length]; rewrite wide_lines; lia].
      apply steps_cool. pose proof (Inw _ S1 R1) as Np. destruct ps; try discriminate So1. cbn [lines]. apply header_cool; [exact Rn|].
      apply inward_nested, commas_read. destruct R1 as [_ R1]. cbn [shaped] in S1. clear - S1 R1.
      induction items as [|x l IH]; [constructor|]. destruct S1 as [[_ A1] A2], R1 as [B1 B2].
      constructor; [exact (proj1 (tree_sound x A1 B1))|auto].
  - assert (Sg' : seg pr InRound (g + 1) false (listed_by_commas (map lines items))).
    { eapply (seg_at _ _ _ _ _ [inline tLPAREN] _ [inline tRPAREN]); [exact Sg|reflexivity|apply steps_round|reflexivity]. }
    apply (proj2 (FmtFactProofs.all_of_Forall _ _)). eapply commas_at; [|exact Sg'|exact Inc|].
    + apply in_all. intros x Hx. destruct (all_of_in _ _ _ S Hx) as [_ Sx]. exact (Cool _ _ x (all_of_in _ _ _ T Hx) Sx (all_of_in _ _ _ Rd Hx)).
    + intros x g' Hx Sx Ix. rewrite Forall_forall in IH. destruct (all_of_in _ _ _ S Hx) as [So Ss].
      eapply (IH x Hx _ _ g' false (all_of_in _ _ _ T Hx) Ss (all_of_in _ _ _ Rd Hx) Sx Ix); [discriminate|unfold roundly; rewrite So; auto].
  - destruct S as [[So1 S1] S2], Rd as [R1 R2], T as [T1 T2]. apply incl_app_inv in Inc as [I1 I2].
    destruct Ro as [-> ->]. split.
    + eapply (IHa InRound InRound g false T1 S1 R1); [|exact I1|discriminate|unfold roundly; rewrite So1; exact Logic.I].
      eapply (seg_at _ _ _ _ _ [] (lines a)); [exact Sg|reflexivity|apply steps_nil|cbn; lia].
    + destruct d as [d|]; [|exact Logic.I]. cbn [opt_list opt_all Popt] in *. destruct S2 as [So2 S2].
      eapply (IHd InRound InRound _ false T2 S2 R2); [|exact I2|discriminate|unfold roundly; rewrite So2; auto].
      eapply (seg_at _ _ _ _ _ (lines a) _ []); [exact Sg|rewrite app_nil_r; reflexivity|exact (steps_cool _ _ (Cool _ _ _ T1 S1 R1))|rewrite wide_lines; lia].
  - destruct S as [So S]. destruct Ro as [-> ->].
    eapply (IH InRound InRound (g + 1) false T S Rd); [|exact Inc|discriminate|unfold roundly; rewrite So; exact Logic.I].
    eapply (seg_at _ _ _ _ _ [inline tEQUAL] _ []); [exact Sg|rewrite app_nil_r; reflexivity|apply steps_flat; [repeat split|discriminate]|reflexivity].
  - destruct S as [[So1 S1] [[So2 S2] S3]], Rd as [R1 [R2 R3]], T as [T1 [T2 T3]].
    apply incl_app_inv in Inc as [I1 Inc]. apply incl_app_inv in Inc as [I2 I3].
    assert (Hc : cool (inline tIF :: inline tLPAREN :: lines c1 ++ [inline tRPAREN])) by (apply header_cool; [repeat split|exact (Inw _ S1 R1)]).
    split; [|split].
    + eapply (IHc InRound InRound _ false T1 S1 R1); [|exact I1|discriminate|unfold roundly; rewrite So1; exact Logic.I].
      eapply (seg_at _ _ _ _ _ [inline tIF; inline tLPAREN] (lines c1)); [exact Sg|reflexivity|apply steps_head; repeat split|reflexivity].
    + eapply (IHt c0 (body_context c) _ false T2 S2 R2); [|exact I2|discriminate|unfold roundly; rewrite So2; exact Logic.I].
      eapply (seg_at _ _ _ _ _ (inline tIF :: inline tLPAREN :: lines c1 ++ [inline tRPAREN]) (lines t) (opt_list lines el));
        [exact Sg|cbn [app]; rewrite <- app_assoc; reflexivity|exact (steps_cool _ _ Hc)|].
      cbn [List.length]. rewrite app_length, wide_lines. cbn. lia.
    + destruct el as [el|]; [|exact Logic.I]. cbn [opt_list opt_all Popt] in *. destruct S3 as [So3 S3].
      eapply (IHe c0 c _ false T3 S3 R3); [|exact I3|discriminate|unfold roundly; rewrite So3; exact Logic.I].
      eapply (seg_at _ _ _ _ _ ((inline tIF :: inline tLPAREN :: lines c1 ++ [inline tRPAREN]) ++ lines t) _ []);
        [exact Sg|cbn [app]; rewrite app_nil_r, <- !app_assoc; reflexivity| |].
      * eapply steps_app; [exact (steps_cool _ _ Hc)|exact (steps_cool _ _ (Cool _ _ _ T2 S2 R2))].
      * cbn [List.length app]. rewrite !app_length, !wide_lines. cbn. lia.
  - destruct S as [So S], T as [Tl T]. split; [exact Tl|].
    eapply (IH c0 (body_context c) (g + 1) false T S Rd); [|exact Inc|discriminate|unfold roundly; rewrite So; exact Logic.I].
    eapply (seg_at _ _ _ _ _ [inline tELSE] _ []); [exact Sg|rewrite app_nil_r; reflexivity|apply steps_flat; [repeat split|discriminate]|reflexivity].
  - destruct S as [[So1 S1] [[So2 S2] [So3 S3]]], Rd as [R1 [R2 R3]], T as [T1 [T2 T3]].
    apply incl_app_inv in Inc as [I1 Inc]. apply incl_app_inv in Inc as [I2 I3].
    split; [|split].
    + eapply (IHv InRound InRound _ false T1 S1 R1); [|exact I1|discriminate|unfold roundly; rewrite So1; exact Logic.I].
      eapply (seg_at _ _ _ _ _ [inline tFOR; inline tLPAREN] (lines v)); [exact Sg|reflexivity|apply steps_head; repeat split|reflexivity].
    + eapply (IHs InRound InRound _ false T2 S2 R2); [|exact I2|discriminate|unfold roundly; rewrite So2; exact Logic.I].
      eapply (seg_at _ _ _ _ _ ([inline tFOR; inline tLPAREN] ++ lines v ++ [inline tIN]) (lines s) (inline tRPAREN :: lines b));
        [exact Sg|cbn [app]; rewrite <- app_assoc; reflexivity| |].
      * eapply steps_app; [apply steps_head; repeat split|]. eapply steps_app; [exact (steps_cool _ _ (Cool _ _ _ T1 S1 R1))|].
        apply steps_flat; [repeat split|discriminate].
      * rewrite !app_length, wide_lines. cbn. lia.
    + eapply (IHb c0 (body_context c) _ false T3 S3 R3); [|exact I3|discriminate|unfold roundly; rewrite So3; exact Logic.I].
      eapply (seg_at _ _ _ _ _ (inline tFOR :: inline tLPAREN :: (lines v ++ inline tIN :: lines s) ++ [inline tRPAREN]) _ []);
        [exact Sg|cbn [app]; repeat (rewrite <- ?app_assoc; cbn [app]); rewrite app_nil_r; reflexivity| |].
      * apply steps_cool, header_cool; [repeat split|]. constructor; [exact (Inw _ S1 R1)|].
        change (inline tIN :: lines s) with ([inline tIN] ++ lines s). constructor; [constructor; reflexivity|exact (Inw _ S2 R2)].
      * cbn [List.length]. rewrite !app_length. cbn [List.length]. rewrite !wide_lines. lia.
  - destruct S as [[So1 S1] [So2 S2]], Rd as [R1 R2], T as [T1 T2]. apply incl_app_inv in Inc as [I1 I2]. split.
    + eapply (IHc InRound InRound _ false T1 S1 R1); [|exact I1|discriminate|unfold roundly; rewrite So1; exact Logic.I].
      eapply (seg_at _ _ _ _ _ [inline tWHILE; inline tLPAREN] (lines c1)); [exact Sg|reflexivity|apply steps_head; repeat split|reflexivity].
    + eapply (IHb c0 (body_context c) _ false T2 S2 R2); [|exact I2|discriminate|unfold roundly; rewrite So2; exact Logic.I].
      eapply (seg_at _ _ _ _ _ (inline tWHILE :: inline tLPAREN :: lines c1 ++ [inline tRPAREN]) _ []);
        [exact Sg|cbn [app]; rewrite app_nil_r, <- app_assoc; reflexivity| |].
      * apply steps_cool, header_cool; [repeat split|exact (Inw _ S1 R1)].
      * cbn [List.length]. rewrite app_length, wide_lines. cbn. lia.
  - destruct S as [So S].
    eapply (IH c0 (body_context c) (g + 1) false T S Rd); [|exact Inc|discriminate|unfold roundly; rewrite So; exact Logic.I].
    eapply (seg_at _ _ _ _ _ [inline tREPEAT] _ []); [exact Sg|rewrite app_nil_r; reflexivity|apply steps_flat; [repeat split|discriminate]|reflexivity].
  - assert (Sg' : seg pr InBraces (g + 1) false (statements (map lines es))).
    { eapply (seg_at _ _ _ _ _ [inline tLCURLY] _ [inline tRCURLY]); [exact Sg|reflexivity|apply steps_curly|reflexivity]. }
    apply (proj2 (FmtFactProofs.all_of_Forall _ _)). eapply statements_at; [|exact Sg'|exact Inc|].
    + apply in_all. intros x Hx. destruct (all_of_in _ _ _ S Hx) as [_ Sx]. exact (Cool _ _ x (all_of_in _ _ _ T Hx) Sx (all_of_in _ _ _ Rd Hx)).
    + intros x g' Hx Sx Ix. rewrite Forall_forall in IH. destruct (all_of_in _ _ _ S Hx) as [So Ss].
      eapply (IH x Hx _ _ g' false (all_of_in _ _ _ T Hx) Ss (all_of_in _ _ _ Rd Hx) Sx Ix); [discriminate|unfold roundly; rewrite So; auto].
  - destruct S as [So S].
    eapply (IH InRound InRound (g + 1) false T S Rd); [|exact Inc|discriminate|unfold roundly; rewrite So; exact Logic.I].
    eapply (seg_at _ _ _ _ _ [inline tLPAREN] _ [inline tRPAREN]); [exact Sg|reflexivity|apply steps_round|reflexivity].
  - destruct S as [[So1 S1] [So2 S2]], Rd as [R1 R2], T as [T1 [T2 T3]]. apply incl_app_inv in Inc as [I1 I2].
    split; [|split; [|exact T3]].
    + eapply (IHf c0 c g false T1 S1 R1); [|exact I1|discriminate|unfold roundly; rewrite So1; exact Logic.I].
      eapply (seg_at _ _ _ _ _ [] (lines f)); [exact Sg|reflexivity|apply steps_nil|cbn; lia].
    + eapply (IHa c0 c _ false T2 S2 R2); [|exact I2|discriminate|unfold roundly; rewrite So2; exact Logic.I].
      eapply (seg_at _ _ _ _ _ (lines f) _ []); [exact Sg|rewrite app_nil_r; reflexivity|exact (steps_cool _ _ (Cool _ _ _ T1 S1 R1))|rewrite wide_lines; lia].
  - assert (Sg' : seg pr InRound (g + 1) false (listed_by_commas (map lines items))).
    { eapply (seg_at _ _ _ _ _ [inline (l_token k)] _ [inline (r_token k)]); [exact Sg|reflexivity|apply steps_open|reflexivity]. }
    apply (proj2 (FmtFactProofs.all_of_Forall _ _)). eapply commas_at; [|exact Sg'|exact Inc|].
    + apply in_all. intros x Hx. destruct (all_of_in _ _ _ S Hx) as [_ Sx]. exact (Cool _ _ x (all_of_in _ _ _ T Hx) Sx (all_of_in _ _ _ Rd Hx)).
    + intros x g' Hx Sx Ix. rewrite Forall_forall in IH. destruct (all_of_in _ _ _ S Hx) as [So Ss].
      eapply (IH x Hx _ _ g' false (all_of_in _ _ _ T Hx) Ss (all_of_in _ _ _ Rd Hx) Sx Ix); [discriminate|unfold roundly; rewrite So; auto].
  - destruct S as [S1 S2], Rd as [R1 R2], T as [T1 T2]. apply incl_app_inv in Inc as [I1 I2]. destruct Ro as [-> ->].
    assert (Cn : cool (opt_list lines nm)).
    { destruct nm as [nm|]; [|exact cool_nil]. destruct S1 as [_ S1]. exact (Cool _ _ _ T1 S1 R1). }
    split.
    + destruct nm as [nm|]; [|exact Logic.I]. cbn [opt_list opt_all Popt] in *. destruct S1 as [So1 S1].
      eapply (IHn InRound InRound g false T1 S1 R1); [|exact I1|discriminate|unfold roundly; rewrite So1; auto].
      eapply (seg_at _ _ _ _ _ [] (lines nm)); [exact Sg|reflexivity|apply steps_nil|cbn; lia].
    + destruct v as [v|]; [|exact Logic.I]. cbn [opt_all Popt] in *. destruct S2 as [So2 S2].
      eapply (IHv InRound InRound _ false T2 S2 R2); [|exact I2|discriminate|unfold roundly; rewrite So2; exact Logic.I].
      eapply (seg_at _ _ _ _ _ (opt_list lines nm) (lines v) []); [exact Sg|rewrite app_nil_r; reflexivity|exact (steps_cool _ _ Cn)|].
      destruct nm as [nm|]; [cbn [opt_list]; rewrite wide_lines; reflexivity|reflexivity].
  - destruct S as [So S]. destruct Ro as [-> ->].
    eapply (IH InRound InRound g false T S Rd); [|exact Inc|discriminate|unfold roundly; rewrite So; exact Logic.I].
    eapply (seg_at _ _ _ _ _ [] (lines nm)); [exact Sg|reflexivity|apply steps_nil|cbn; lia].
Qed.
End Tree.
