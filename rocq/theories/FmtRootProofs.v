(** The whole file. *)
From Coq Require Import List Arith Bool NArith Lia Permutation.
From Verif Require Import Text SettingsModel SyntaxKind DirectiveModel FmtTree IrModel
  TableModel FmtModel FmtSpec FmtProofs FmtRunProofs FmtListProofs FmtTidyProofs.
Import ListNotations.

Lemma counts_perm (a b : list text) : (forall c, tcount c a = tcount c b) -> Permutation a b.
Proof. intros H. apply (Permutation_count_occ text_dec), H. Qed.

Section Root.
Variable o : format_options.
Variable pc : doc -> option (list piece).
Hypothesis Cp : cell_printer pc.

Lemma root_shows r out :
  root_shaped r -> prints (root_doc o pc r) out ->
  exists bom' es', Forall2 same_token (opt_list (fun t => [t]) (r_bom r)) bom' /\
    Forall2 (tidy o (p_stmt true)) (r_exprs r) es' /\
    ptokens out = bom' ++ concat (map etokens es') /\
    (root_placed o r ->
     Permutation (pcomments out) (root_comments r) /\ comments_closed out).
Proof.
  intros Sh [os [L ->]]. apply lay_glay in L. unfold root_doc in L.
  set (P := root_placed o r).
  split_lay L. split_lay L. split_lay L. split_lay L. split_lay L. split_lay L. lay_nil L.
  apply (leading_emits P) in A. apply line_neutral in A2. apply (dangling_soft_emits P) in A3.
  apply (trailing_emits P) in A4.
  assert (B : exists b', Forall2 same_token (opt_list (fun t => [t]) (r_bom r)) b' /\
                emits P x0 b' []).
  { destruct (r_bom r) as [t|].
    - apply (token_emits P) in A0. exists [norm_token t].
      split; [constructor; [apply same_norm_token|constructor]|exact A0].
    - cbn [glay] in A0. subst. exists []. split; [constructor|apply emits_nil]. }
  destruct B as [b' [Fb Eb]].
  unfold rule_expression_list in A1.
  assert (O : forall y d,
    In (y, d) (map (fun e => (e, fmt o pc [FRootList] fo0 e)) (r_exprs r)) ->
    ok P (tidy o (p_stmt true)) y d).
  { intros y d I. apply in_map_iff in I. destruct I as [z [E I]]. injection E as <- <-.
    pose proof (all_of_In _ _ _ Sh I) as [S1 S2].
    intros m u U.
    refine (child0 o pc P z _ (p_stmt true) m u (fmt_holds o pc Cp z S2) _ _ _ U).
    - rewrite S1. discriminate.
    - repeat split.
    - intros q. exact (all_of_In _ _ _ q I). }
  destruct (join_entries_ok P (tidy o (p_stmt true)) true Expanded _ _ _ O A1) as [es' [Fe Ee]].
  assert (MF : map fst (map (fun e => (e, fmt o pc [FRootList] fo0 e)) (r_exprs r)) = r_exprs r)
    by (rewrite map_map; cbn [fst]; apply map_id).
  rewrite MF in Fe, Ee.
  assert (E : emits P (x ++ x0 ++ x1 ++ x2 ++ x3 ++ x4 ++ [])
                (b' ++ concat (map etokens es')) (root_comments r)).
  { rewrite app_nil_r. unfold root_comments, wrap_comments.
    emitting; norm; rewrite <- ?app_assoc; reflexivity. }
  destruct E as [Et Ec]. exists b', es'. split; [exact Fb|]. split; [exact Fe|].
  split; [rewrite run_tokens; exact Et|].
  intros q. destruct (Ec q) as [C K]. split; [|apply run_closed, K].
  apply counts_perm. intros c. rewrite run_comments. apply C.
Qed.
End Root.
