(** C39 from text to text, skipped code included. *)
From Coq Require Import List NArith Bool Arith Lia String.
From Verif Require Import Text LineEndingSpec SettingsModel SyntaxKind DirectiveModel FmtTree IrModel TableModel
  FmtModel FmtSpec FmtFactProofs ParseModel ParseSpec CommentsSpec AstModel FrontProofs FactorySpec LexSourceSpec LexSourceProofs
  LexSpec LexAlignProofs LexTreeProofs SourceSpec SourceNodeProofs RReadSpec FmtLineSpec FmtLineProofs RTextSpec RTreeProofs RWideProofs
  GrammarSpec GrammarProofs RSoundProofs RProgramSpec RProgramProofs RSliceProofs RTailProofs RNormProofs RCutProofs RFitProofs.
Import ListNotations.

Lemma source_fits rf src t r o :
  well_parsed src t -> conforms t = true -> spelled src t -> read_by_r src t -> source_root rf src t = Some r ->
  root_tame_with (stays o) r -> r_program src (map term_of (r_exprs r)) ->
  root_tame_with (fun c0 c e => copied o e -> fitting c e) r.
Proof.
  intros W C S Rd F [Tb T] P.
  pose proof (source_front_shaped rf src t r F) as Sh. pose proof (source_lexical rf src t r W C S Rd F) as Lx.
  destruct (read_settles src r Sh Lx P) as [Tk [_ Cl]]. destruct Lx as [_ [_ Lx]].
  destruct (source_cuts rf src t r W C S Rd F) as (U & toks & rest & Src & Uok & Utr & Ual & _ & Tok & Cuts).
  split; [exact Tb|].
  unfold tokens_of, r_read in Tk. destruct (RReadSpec.items src) as [is|] eqn:Is; [|discriminate].
  destruct (r_items r_start is) as [[m st]|] eqn:Run; [|discriminate]. injection Tk as Tk.
  pose proof (tokens_marked src is m st Is Run) as Mm. rewrite Tk in Mm. rewrite <- Mm in Run.
  rewrite <- program_tokens in Tok.
  assert (Nr : forall x, In x (r_exprs r) -> tame (stays o) InFile InFile x /\ shaped x /\ sort_of x = SoExpr /\ everywhere node_read x).
  { intros x Hx. pose proof (all_of_in _ _ _ T Hx) as Tx. destruct (all_of_in _ _ _ Sh Hx) as [So Sx].
    split; [exact Tx|]. split; [exact Sx|]. split; [exact So|].
    exact (tree_read _ x _ _ Tx (all_of_in _ _ _ Lx Hx) (all_of_in _ _ _ Cl Hx)). }
  assert (Nm : Forall (fun y => reads_normed (snd y)) (root_nodes r)).
  { apply Forall_forall. intros [g x] Hx. destruct (row_in _ _ _ _ _ Hx) as (a & z & b & E & Hz).
    assert (Iz : In z (r_exprs r)) by (rewrite E; apply in_elt). destruct (Nr z Iz) as (_ & Sz & _ & Rz).
    pose proof (nodes_shaped _ _ _ _ Hz Sz) as Sx. pose proof (nodes_everywhere _ _ _ _ _ Hz Rz) as Rx.
    exact (lexical_normed x Sx (nodes_everywhere _ _ _ _ _ Hz (all_of_in _ _ _ Lx Iz)) (inward_nested _ (proj1 (tree_sound x Sx Rx)))). }
  apply (proj2 (FmtFactProofs.all_of_Forall _ _)).
  eapply (statements_at (program (r_exprs r)) InFile (root_nodes r)).
  - apply in_all. intros x Hx. destruct (Nr x Hx) as (Tx & Sx & So & Rx). exact (finish_cool _ (tree_finish _ x _ _ Tx Sx Rx)).
  - exists [], false, [], []. split; [|repeat split]. cbn [app]. rewrite app_nil_r. unfold program.
    destruct (statements (map lines (r_exprs r))) as [|[? ?] ?]; reflexivity.
  - unfold root_nodes, bom_tokens. rewrite (source_bom rf src t r W F). apply incl_refl.
  - intros x g Hx Sg Inc. destruct (Nr x Hx) as (Tx & Sx & So & Rx).
    apply (tree_kept o src U toks rest (program (r_exprs r)) is st (root_nodes r) Src Uok Utr Ual Tok Is Run Nm Cuts
      x InFile InFile g false Tx Sx Rx Sg Inc); [discriminate|unfold roundly; rewrite So; exact I].
Qed.

Theorem source_kept rf src t r o pc out txt :
  well_parsed src t -> conforms t = true -> spelled src t -> read_by_r src t ->
  source_root rf src t = Some r -> root_tables_clear o r ->
  root_tame_with (stays o) r ->
  all_of (restylable (o_assignment_style o)) (r_exprs r) ->
  r_program src (map term_of (r_exprs r)) ->
  cell_printer pc -> prints (root_doc o pc r) out -> rendered out txt ->
  exists l', r_program txt l' /\ same_program (o_assignment_style o) (map term_of (r_exprs r)) l'.
Proof.
  intros W C S R F Tc Tm Rs P Cp Pr Re.
  exact (source_to_text rf src t r o pc out txt W C S R F Tc (source_fits rf src t r o W C S R F Tm P) Rs P Cp Pr Re).
Qed.
