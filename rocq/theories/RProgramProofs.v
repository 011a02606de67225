(** C39 from text to text. *)
From Coq Require Import List NArith Bool Arith Lia String.
From Verif Require Import Text LineEndingSpec SettingsModel SyntaxKind DirectiveModel FmtTree IrModel TableModel
  FmtModel FmtSpec ParseSpec CommentsSpec AstModel FrontProofs FactorySpec LexSourceSpec LexSourceProofs LexSpec LexTreeProofs RReadSpec FmtLineSpec FmtLineProofs RTextSpec RWideProofs GrammarSpec GrammarProofs
  GrammarTidyProofs GrammarSoundProofs GrammarMapProofs RSoundProofs RProgramSpec.
Import ListNotations.

Lemma lexical_joint e : everywhere lexical_node e -> everywhere joint_kinds e.
Proof.
  assert (J : forall x, lexical_node x -> joint_kinds x).
  { intros x [T _]. destruct x; try exact I; destruct T as [T _]; cbn [In] in T;
      repeat destruct T as [T|T]; try contradiction; cbn [joint_kinds]; rewrite <- T; reflexivity. }
  assert (All : forall l, Forall (fun e => everywhere lexical_node e -> everywhere joint_kinds e) l ->
    all_of (everywhere lexical_node) l -> all_of (everywhere joint_kinds) l).
  { induction 1 as [|x l H F IH]; intros A; [exact I|]. destruct A. split; auto. }
  assert (Opt : forall x, Popt (fun e => everywhere lexical_node e -> everywhere joint_kinds e) x ->
    opt_all (everywhere lexical_node) x -> opt_all (everywhere joint_kinds) x).
  { intros [x|] H A; [exact (H A)|exact I]. }
  induction e using expr_ind'; intros [L0 L]; (split; [apply J; exact L0|]); cbn [everywhere] in *;
    repeat match goal with H : _ /\ _ |- _ => destruct H end;
    repeat match goal with |- _ /\ _ => split end; auto.
Qed.

(** The source as R reads it settles the kinds and the grammar of the tree. *)
Lemma read_settles src r : root_shaped r -> lexical r -> r_program src (map term_of (r_exprs r)) ->
  tokens_of src = Some (program (r_exprs r)) /\ file_grammatical r /\ classed r.
Proof.
  intros Sh [_ [_ Lx]] [m [T P]]. destruct (tokens_clean _ _ T) as [C U].
  assert (J : all_of (everywhere joint_kinds) (r_exprs r)).
  { apply all_of_Forall. intros x Hx. apply lexical_joint. exact (all_of_in _ _ _ Lx Hx). }
  destruct (parses_trees _ _ C U Sh J P) as [-> G]. split; [exact T|]. split; [exact G|].
  unfold tokens_of, r_read in T. destruct (RReadSpec.items src) as [is|] eqn:Is; [|discriminate].
  destruct (r_items r_start is) as [[l st]|] eqn:R; [|discriminate]. injection T as T.
  pose proof (r_tokens_strung _ [] l (le_n _) (r_items_whole _ _ _ _ (items_whole _ _ Is) R)) as St.
  pose proof (r_tokens_classed _ [] l (le_n _)) as At. rewrite T, program_tokens in St, At.
  unfold classed. apply all_of_Forall. intros x Hx.
  assert (Pt : Forall (part (List.concat (map etokens (r_exprs r)))) (map etokens (r_exprs r))).
  { apply part_concat. exists [], []. rewrite app_nil_r. reflexivity. }
  rewrite Forall_map, Forall_forall in Pt.
  exact (classed_infix _ St At x (Pt x Hx) true (all_of_in _ _ _ G Hx) (all_of_in _ _ _ Lx Hx)).
Qed.

Lemma same_imap a b : Forall2 same_marked a b -> imap settled b = imap settled a.
Proof.
  induction 1 as [|x y a b [M S] F IH]; [reflexivity|]. cbn [imap map]. fold (imap settled).
  change (map (fun x => (settled (fst x), snd x)) a) with (imap settled a).
  change (map (fun x => (settled (fst x), snd x)) b) with (imap settled b).
  rewrite IH, M. destruct S as [->|S]; [reflexivity|]. rewrite (settled_same _ _ S). reflexivity.
Qed.

Theorem text_to_text o pc r src out txt :
  cell_printer pc -> root_shaped r -> root_placed o r -> lexical r ->
  root_tame_with (fun c0 c e => copied o e -> fitting c e) r ->
  all_of (restylable (o_assignment_style o)) (r_exprs r) ->
  r_program src (map term_of (r_exprs r)) ->
  prints (root_doc o pc r) out -> rendered out txt ->
  exists l', r_program txt l' /\ same_program (o_assignment_style o) (map term_of (r_exprs r)) l'.
Proof.
  intros Cp Sh Pl Lx Tm Rs P Pr Re. destruct (read_settles src r Sh Lx P) as [_ [G Cl]].
  destruct (text_reads o pc r out txt Cp Sh Pl Lx Cl Tm Pr Re) as [es' [l [Ti [Sm Tk]]]].
  destruct (tidied_file o _ _ Ti Sh G Rs) as [Pa Sp].
  pose proof (map_parses settled _ _ settled_kind Pa) as Pm. rewrite <- (same_imap _ _ Sm) in Pm.
  destruct (parses_map settled _ _ settled_kind Pm) as [l' [Pl' El]].
  exists l'. split; [exists l; split; assumption|]. unfold same_program in *. rewrite Sp.
  exact (same_settled (o_assignment_style o) _ _ (eq_sym El)).
Qed.

Theorem source_to_text rf src t r o pc out txt :
  well_parsed src t -> conforms t = true -> spelled src t -> read_by_r src t ->
  source_root rf src t = Some r -> root_tables_clear o r ->
  root_tame_with (fun c0 c e => copied o e -> fitting c e) r ->
  all_of (restylable (o_assignment_style o)) (r_exprs r) ->
  r_program src (map term_of (r_exprs r)) ->
  cell_printer pc -> prints (root_doc o pc r) out -> rendered out txt ->
  exists l', r_program txt l' /\ same_program (o_assignment_style o) (map term_of (r_exprs r)) l'.
Proof.
  intros W C S R F T Tm Rs P Cp Pr Re.
  exact (text_to_text o pc r src out txt Cp (source_front_shaped rf src t r F)
    (source_front_placed rf src t r F o T) (source_lexical rf src t r W C S R F) Tm Rs P Pr Re).
Qed.
