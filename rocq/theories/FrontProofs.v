(** From the source to the typed tree: tokens and comments are kept, and
    comments are attached where the formatting rules look for them. *)
From Coq Require Import List Arith Bool NArith Lia Permutation.
From Verif Require Import Text TextFacts SettingsModel DirectiveModel SyntaxKind ParseModel ParseSpec
  ParseProofs ParseTree FmtTree FmtSpec CommentsModel CommentsSpec CommentsProofs AstModel AstReads AstProofs.
Import ListNotations.

(** * Dangling comments *)

Section Dangling.
Variable root : syn.
Variable pl : list placement.
Hypothesis pl_well : Forall (placed_well root) pl.
Hypothesis root_kind : forall k cs, root = Node k cs -> form_of k = FoNone.

Lemma reads_form p g t e : reads pl p g t e -> exists k cs, t = Node k cs /\ form_of k <> FoNone.
Proof.
  destruct 1; do 2 eexists; split; try reflexivity; congruence.
Qed.
Lemma reads_has_node p g t e : reads pl p g t e -> has_node t = true.
Proof.
  intros R. destruct (reads_form _ _ _ _ R) as [k [cs [-> F]]]. cbn. rewrite (form_not_list k F).
  reflexivity.
Qed.
Lemma form_expression k : (exists b, form_of k = FoCall b) \/
    In (form_of k) [FoLeaf; FoUnary; FoBinary; FoExtract; FoNamespace; FoFunction; FoIf; FoFor;
                    FoWhile; FoRepeat; FoBraced; FoParen] -> is_expression k = true.
Proof.
  unfold is_expression. intros [[b ->]|H]; [reflexivity|]. cbn in H.
  repeat (destruct H as [<-|H]; [reflexivity|]). destruct H.
Qed.
Lemma reads_expression p g t e :
  reads pl p g t e -> sort_of e = SoExpr -> exists k cs, t = Node k cs /\ is_expression k = true.
Proof.
  intros R S. destruct R; cbn in S; try discriminate S; do 2 eexists; (split; [reflexivity|]);
    apply form_expression; try (left; eexists; eassumption); right; rewrite H; cbn; tauto.
Qed.

Lemma no_dangling p k cs :
  at_path root p = Some (Node k cs) -> form_of k <> FoNone ->
  cs = [] \/ existsb has_node cs = true ->
  (k = R_BRACED_EXPRESSIONS -> first_expression root p <> None) ->
  placed_at pl Dangling p = [].
Proof.
  intros At F N B. unfold placed_at.
  destruct (filter _ pl) as [|q l] eqn:E; [reflexivity|exfalso].
  assert (Q : In q (filter (fun q => how_eqb (pt_how q) Dangling && path_eqb (pt_path q) p) pl))
    by (rewrite E; left; reflexivity).
  apply filter_In in Q as [Q H]. apply andb_true_iff in H as [H P]. apply path_eqb_eq in P.
  destruct (proj1 (Forall_forall _ _) pl_well q Q) as [_ [W _]]. rewrite P in W.
  specialize (W ltac:(destruct (pt_how q); (reflexivity || discriminate H))).
  destruct W as [W|[[W W']|[k' [cs' [A [Ne No]]]]]].
  - subst p. rewrite W in At. cbn in At. injection At as At. apply F, (root_kind _ _ At).
  - apply is_kind_node in W. unfold node_kind in W. rewrite At in W. injection W as ->. exact (B eq_refl W').
  - rewrite At in A. injection A as -> ->. destruct N; congruence.
Qed.

Definition all_at (q : path) (i : nat) (l : list syn) : Prop :=
  forall j x, nth_error l j = Some x -> at_path root (i + j :: q) = Some x.
Lemma all_at_head q i x l : all_at q i (x :: l) -> at_path root (i :: q) = Some x.
Proof. intros A. specialize (A 0 x eq_refl). rewrite Nat.add_0_r in A. exact A. Qed.
Lemma all_at_tail q i x l : all_at q i (x :: l) -> all_at q (S i) l.
Proof. intros A j y H. rewrite Nat.add_succ_comm. apply A, H. Qed.
Lemma all_at_node q k cs : at_path root q = Some (Node k cs) -> all_at q 0 cs.
Proof. intros A j x H. cbn [at_path Nat.add]. rewrite A. exact H. Qed.
Lemma at_child p k cs i x :
  at_path root p = Some (Node k cs) -> nth_error cs i = Some x -> at_path root (i :: p) = Some x.
Proof. intros A N. cbn [at_path]. rewrite A. exact N. Qed.

Lemma everywhere_separator c e :
  everywhere dangles_well e -> everywhere dangles_well (with_separator c e).
Proof. destruct e; auto. Qed.

Lemma note_dang p g t : n_dang (note pl p g t) = [] <-> placed_at pl Dangling p = [].
Proof.
  cbn [note n_dang]. split; intros H; [|rewrite H; reflexivity].
  destruct (placed_at pl Dangling p); [reflexivity|discriminate H].
Qed.
Lemma sep_first s q i g l es :
  reads_sep pl s q i g l es -> es <> [] -> existsb has_node l = true.
Proof.
  intros R N. destruct R; [contradiction| |]; cbn; rewrite (reads_has_node _ _ _ _ H); reflexivity.
Qed.

Lemma list_first s q i g l es :
  reads_list pl s q i g l es -> es <> [] ->
  exists x r e, l = x :: r /\ reads pl (i :: q) g x e /\ sort_of e = s.
Proof. intros R N. destruct R; [contradiction|]. eauto 8. Qed.

Ltac child := match goal with
  | A : at_path root ?p = Some (Node _ ?cs) |- at_path root (?i :: ?p) = Some _ =>
    exact (at_child p _ cs i _ A eq_refl)
  end.

Lemma reads_dangles p g t e :
  reads pl p g t e -> at_path root p = Some t -> everywhere dangles_well e.
Proof.
  revert p g t e.
  apply (reads_mind pl
    (fun p g t e => at_path root p = Some t -> everywhere dangles_well e)
    (fun s q i g l es => all_at q i l -> all_of (everywhere dangles_well) es)
    (fun s q i g l es => all_at q i l -> all_of (everywhere dangles_well) es));
    intros; cbn [everywhere all_of opt_all];
    repeat match goal with
    | |- _ /\ _ => split
    | |- dangles_well (ELeaf _ _ _) => exact I
    | |- True => exact I
    | IH : at_path root ?q = Some _ -> everywhere dangles_well ?e |- everywhere dangles_well ?e =>
      apply IH; child
    end; try exact I.
  - (* parameters *)
    intros N. apply note_dang. eapply no_dangling; [eassumption|congruence| |].
    + right. subst lk. cbn. rewrite (sep_first _ _ _ _ _ _ H3 N). reflexivity.
    + intros ->. discriminate.
  - apply H4. eapply all_at_node. child.
  - (* braces *)
    intros N. destruct (list_first _ _ _ _ _ _ H3 N) as [x [r [e' [-> [R So]]]]].
    apply note_dang. eapply no_dangling; [eassumption|congruence| |].
    + right. subst lk. cbn. rewrite (reads_has_node _ _ _ _ R). reflexivity.
    + intros ->.
      assert (A : at_path root (1 :: p) = Some (Node lk (x :: r))) by child.
      unfold first_expression, is_kind, expression_field, node_kind. rewrite A. subst lk.
      rewrite kind_eqb_refl.
      pose proof (at_child _ _ _ 0 x A eq_refl) as A0. rewrite A0.
      destruct (reads_expression _ _ _ _ R So) as [k' [cs' [-> E]]].
      rewrite E. discriminate.
  - apply H4. eapply all_at_node. child.
  - (* arguments *)
    intros N. apply note_dang. eapply no_dangling; [eassumption|congruence| |].
    + right. subst lk. cbn. rewrite (sep_first _ _ _ _ _ _ H3 N). reflexivity.
    + intros ->. discriminate.
  - apply H4. eapply all_at_node. child.
  - apply note_dang. eapply no_dangling; [eassumption|congruence|auto|intros ->; discriminate].
  - apply note_dang. eapply no_dangling; [eassumption|congruence| |intros ->; discriminate].
    right. cbn. rewrite (reads_has_node _ _ _ _ H0). reflexivity.
  - apply note_dang. eapply no_dangling; [eassumption|congruence| |intros ->; discriminate].
    right. cbn. rewrite (reads_has_node _ _ _ _ H0). reflexivity.
  - apply note_dang. eapply no_dangling; [eassumption|congruence| |intros ->; discriminate].
    right. cbn. rewrite (reads_has_node _ _ _ _ H0). reflexivity.
  - apply H0. eapply all_at_head. eassumption.
  - apply H3. eapply all_at_tail. eassumption.
  - apply H0. eapply all_at_head. eassumption.
  - apply everywhere_separator, H0. eapply all_at_head. eassumption.
  - apply H5. eapply all_at_tail, all_at_tail. eassumption.
Qed.

(** * Chains *)

Lemma form_binary k : form_of k = FoBinary -> k = R_BINARY_EXPRESSION.
Proof. destruct k; intros H; try discriminate H; reflexivity. Qed.
Lemma reads_binary p g t n l op r : reads pl p g t (EBinary n l op r) ->
  exists x y z, t = Node R_BINARY_EXPRESSION [x; Tok y; z] /\ n = note pl p g t /\ has_node x = true.
Proof.
  intros R. remember (EBinary n l op r) as e eqn:E. destruct R; try discriminate E.
  injection E as <- <- <- <-. apply form_binary in H. subst k.
  do 3 eexists. split; [reflexivity|]. split; [reflexivity|]. eapply reads_has_node, R1.
Qed.
Lemma no_leading p g t :
  (forall q, In q pl -> pt_how q = Leading -> pt_path q <> p) -> n_lead (note pl p g t) = [].
Proof.
  intros N. cbn [note n_lead]. unfold placed_at.
  destruct (filter _ pl) as [|q l] eqn:E; [reflexivity|exfalso].
  assert (Q : In q (filter (fun q => how_eqb (pt_how q) Leading && path_eqb (pt_path q) p) pl))
    by (rewrite E; left; reflexivity).
  apply filter_In in Q as [Q H]. apply andb_true_iff in H as [H P]. apply path_eqb_eq in P.
  apply (N q Q); [|exact P]. destruct (pt_how q); (reflexivity || discriminate H).
Qed.
Lemma everywhere_separator' c e :
  everywhere chain_clear e -> everywhere chain_clear (with_separator c e).
Proof. destruct e; auto. Qed.

Lemma reads_chains p g t e :
  reads pl p g t e -> at_path root p = Some t -> everywhere chain_clear e.
Proof.
  revert p g t e.
  apply (reads_mind pl
    (fun p g t e => at_path root p = Some t -> everywhere chain_clear e)
    (fun s q i g l es => all_at q i l -> all_of (everywhere chain_clear) es)
    (fun s q i g l es => all_at q i l -> all_of (everywhere chain_clear) es));
    intros; cbn [everywhere all_of opt_all];
    repeat match goal with
    | |- _ /\ _ => split
    | |- chain_clear (EBinary _ _ _ _) => idtac
    | |- chain_clear _ => exact I
    | |- True => exact I
    | IH : at_path root ?q = Some _ -> everywhere chain_clear ?e |- everywhere chain_clear ?e =>
      apply IH; child
    end; try exact I.
  - unfold chain_clear. destruct l' as [| |n a op' b| | | | | | | | | | | | | | | | |]; try exact I.
    destruct (reads_binary _ _ _ _ _ _ _ H0) as [x [y [z [El [-> Hx]]]]].
    apply form_binary in H. subst k.
    assert (Al : at_path root (0 :: p) = Some l) by child.
    assert (Bl : is_kind root R_BINARY_EXPRESSION (0 :: p) = true)
      by (unfold is_kind, node_kind; rewrite Al, El; apply kind_eqb_refl).
    assert (Bp : is_kind root R_BINARY_EXPRESSION p = true)
      by (unfold is_kind, node_kind; match goal with A : at_path root p = _ |- _ => rewrite A end;
          apply kind_eqb_refl).
    split.
    + apply no_leading. intros q Q L P.
      destruct (proj1 (Forall_forall _ _) pl_well q Q) as [_ [_ W]]. specialize (W L).
      rewrite P in W. rewrite (W Bl p eq_refl) in Bp; [discriminate Bp|]. intros ->.
      apply is_kind_node in Bp. unfold node_kind in Bp. cbn in Bp.
      destruct root as [k0 cs0|]; [|discriminate Bp]. injection Bp as ->.
      discriminate (root_kind _ _ eq_refl).
    + apply note_dang. rewrite El in Al. eapply no_dangling; [exact Al|discriminate| |discriminate].
      right. cbn [existsb]. rewrite Hx. reflexivity.
  - apply H4. eapply all_at_node. child.
  - apply H4. eapply all_at_node. child.
  - apply H4. eapply all_at_node. child.
  - apply H0. eapply all_at_head. eassumption.
  - apply H3. eapply all_at_tail. eassumption.
  - apply H0. eapply all_at_head. eassumption.
  - apply everywhere_separator', H0. eapply all_at_head. eassumption.
  - apply H5. eapply all_at_tail, all_at_tail. eassumption.
Qed.
End Dangling.

(** * The typed tree *)

Lemma all_of_forall {A} (P : A -> Prop) l : all_of P l <-> Forall P l.
Proof.
  induction l as [|x r IH]; cbn; [split; constructor|]. rewrite IH. split.
  - intros [H F]. constructor; assumption.
  - intros F. inversion F. split; assumption.
Qed.

Definition placed_if (o : format_options) (e : expr) : Prop := forall p,
  everywhere dangles_well e -> tables_clear o p e -> FmtSpec.placed o p e.
Lemma all_placed o p l : Forall (placed_if o) l ->
  all_of (everywhere dangles_well) l -> all_of (tables_clear o p) l ->
  all_of (FmtSpec.placed o p) l.
Proof.
  induction 1 as [|x r Hx _ IH]; cbn; [auto|]. intros [A B] [C D]. split; auto.
Qed.
Lemma all_stmts_placed o l : Forall (placed_if o) l ->
  all_of (everywhere dangles_well) l ->
  all_stmts (fun effect => tables_clear o (p_stmt effect)) l ->
  all_stmts (fun effect => FmtSpec.placed o (p_stmt effect)) l.
Proof.
  induction 1 as [|x r Hx _ IH]; cbn; [auto|]. intros [A B] [C D]. split; auto.
Qed.
Lemma opt_placed o p x : Popt (placed_if o) x ->
  opt_all (everywhere dangles_well) x -> opt_all (tables_clear o p) x ->
  opt_all (FmtSpec.placed o p) x.
Proof. destruct x; cbn; auto. Qed.

Lemma dangles_placed o e : placed_if o e.
Proof.
  induction e using expr_ind'; intros p D T;
    cbn [everywhere tables_clear FmtSpec.placed dangles_well] in *;
    repeat match goal with
    | H : _ /\ _ |- _ => destruct H
    end; repeat match goal with |- _ /\ _ => split end;
    eauto using all_placed, all_stmts_placed, opt_placed.
Qed.

Lemma typed_all_reads pl q i g l es :
  typed_all pl q i g l = Some es -> reads_list pl SoExpr q i g l es.
Proof.
  revert i g es. induction l as [|x r IH]; intros i g es H; cbn in H.
  - injection H as <-. constructor.
  - destruct (sorted SoExpr (typed pl (i :: q) g x)) as [e|] eqn:E; [|discriminate].
    destruct (typed_all pl q (S i) (g + width x) r) as [es'|] eqn:F; [|discriminate].
    injection H as <-. apply sorted_some in E as [E So]. constructor; auto using typed_reads.
Qed.

Section Lists.
Variable pl : list placement.
Lemma list_tokens s q i g l es : reads_list pl s q i g l es ->
  map token_of (flat_map syn_tokens l) = List.concat (map etokens es).
Proof.
  induction 1 as [|s q i g x e r es R So _ IH]; cbn; [reflexivity|].
  rewrite map_app, IH, (reads_tokens _ _ _ _ _ R). reflexivity.
Qed.
Lemma list_comments s q i g l es : reads_list pl s q i g l es ->
  Permutation (List.concat (map ecomments es)) (gathered_all pl q i l).
Proof.
  induction 1 as [|s q i g x e r es R So _ IH]; cbn; [constructor|].
  apply Permutation_app; [|exact IH]. eapply reads_comments, R.
Qed.
Lemma list_shaped s q i g l es : reads_list pl s q i g l es ->
  all_of (fun e => sort_of e = s /\ shaped e) es.
Proof.
  induction 1 as [|s q i g x e r es R So _ IH]; cbn; [exact I|].
  split; [|exact IH]. split; [exact So|]. eapply reads_shaped, R.
Qed.
Lemma list_dangles root s q i g l es :
  Forall (placed_well root) pl ->
  (forall k cs, root = Node k cs -> form_of k = FoNone) ->
  reads_list pl s q i g l es -> all_at root q i l -> all_of (everywhere dangles_well) es.
Proof.
  intros W K. induction 1 as [|s q i g x e r es R So _ IH]; cbn; [auto|]. intros A. split.
  - eapply reads_dangles; eauto. eapply all_at_head, A.
  - eapply IH, all_at_tail, A.
Qed.
Lemma list_chains root s q i g l es :
  Forall (placed_well root) pl ->
  (forall k cs, root = Node k cs -> form_of k = FoNone) ->
  reads_list pl s q i g l es -> all_at root q i l -> all_of (everywhere chain_clear) es.
Proof.
  intros W K. induction 1 as [|s q i g x e r es R So _ IH]; cbn; [auto|]. intros A. split.
  - eapply reads_chains; eauto. eapply all_at_head, A.
  - eapply IH, all_at_tail, A.
Qed.
End Lists.

(** What is read of a file. *)
Lemma front_end_reads rf t r : front_end rf t = Some r ->
  exists cs e lk l b q g,
    t = Node R_ROOT cs /\ cs = b ++ [Node lk l; Tok e] /\ lk = R_EXPRESSION_LIST /\
    p_kind e = EOF /\
    match r_bom r with
    | Some x => exists y, b = [Tok y] /\ x = token_of y /\ q = [1] /\ g = 1
    | None => b = [] /\ q = [0] /\ g = 0
    end /\
    r_notes r = root_note (attached t rf) t /\
    reads_list (attached t rf) SoExpr q 0 g l (r_exprs r).
Proof.
  unfold front_end. set (pl := attached t rf). clearbody pl. unfold typed_root.
  destruct t as [k cs|]; [|discriminate].
  destruct (kind_eqb k R_ROOT) eqn:K; [|discriminate]. apply kind_eqb_eq in K. subst k.
  destruct cs as [|[lk l|y] [|[lk' l'|e] [|[lk'' l''|e'] [|x cs]]]]; try discriminate; intros H;
    apply check_some in H as [B H]; repeat (apply andb_true_iff in B as [B ?]);
    repeat match goal with X : kind_eqb _ _ = true |- _ => apply kind_eqb_eq in X end;
    match type of H with match ?x with _ => _ end = _ => destruct x as [es|] eqn:E; [|discriminate] end;
    injection H as <-; apply typed_all_reads in E.
  - exists [Node lk l; Tok e], e, lk, l, [], [0], 0. cbn. repeat split; auto.
  - exists [Tok y; Node lk' l'; Tok e'], e', lk', l', [Tok y], [1], 1.
    cbn. repeat split; auto. exists y. auto.
Qed.

Section Root.
Variables (rf : bool) (t : syn) (r : root).
Hypothesis H : front_end rf t = Some r.

Lemma root_syn : exists cs, t = Node R_ROOT cs.
Proof. destruct (front_end_reads _ _ _ H) as [cs [e [lk [l [b [q [g [E _]]]]]]]]. eauto. Qed.
Lemma root_attached : Forall (placed_well t) (attached t rf).
Proof. destruct root_syn as [cs ->]. eapply attached_well; reflexivity. Qed.

Theorem front_tokens : exists e,
  p_kind e = EOF /\ map token_of (syn_tokens t) = root_tokens r ++ [token_of e].
Proof.
  destruct (front_end_reads _ _ _ H) as [cs [e [lk [l [b [q [g [-> [-> [-> [Ke [B [_ R]]]]]]]]]]]]].
  exists e. split; [exact Ke|]. unfold root_tokens. cbn [syn_tokens].
  rewrite flat_map_app, map_app. cbn [flat_map syn_tokens app].
  rewrite map_app, (list_tokens _ _ _ _ _ _ _ R).
  destruct (r_bom r) as [x|].
  - destruct B as [y [-> [-> _]]]. reflexivity.
  - destruct B as [-> _]. reflexivity.
Qed.

Theorem front_comments : Permutation (root_comments r) (syn_comments t).
Proof.
  pose proof root_attached as W.
  assert (T : Forall (target_ok t) (attached t rf)).
  { eapply Forall_impl; [|exact W]. intros x [[k [cs G]] _]. exists k, cs. exact G. }
  apply all_gathered in T.
  assert (A : map (fun q => d_text (pt_comment q)) (attached t rf) = syn_comments t).
  { destruct root_syn as [cs ->]. apply attached_texts. reflexivity. }
  rewrite A in T. rewrite <- T. clear A T W.
  destruct (front_end_reads _ _ _ H) as [cs [e [lk [l [b [q [g [Et [-> [-> [Ke [B [N R]]]]]]]]]]]]].
  unfold root_comments. rewrite N. set (pl := attached t rf) in *. clearbody pl.
  assert (G : gathered pl [] t = own_texts pl [] ++ gathered_all pl [] 0
                (b ++ [Node R_EXPRESSION_LIST l; Tok e])) by (rewrite Et, gathered_node; reflexivity).
  rewrite G. apply (note_comments pl [] 0 t).
  rewrite (list_comments _ _ _ _ _ _ _ R).
  destruct (r_bom r).
  - destruct B as [y [-> [_ [-> ->]]]]. cbn [app gathered_all]. rewrite !gathered_tok, gathered_node.
    cbn. rewrite app_nil_r. reflexivity.
  - destruct B as [-> [-> ->]]. cbn [app gathered_all]. rewrite !gathered_tok, gathered_node.
    cbn. rewrite app_nil_r. reflexivity.
Qed.

Theorem front_shaped : root_shaped r.
Proof.
  destruct (front_end_reads _ _ _ H) as [cs [e [lk [l [b [q [g [_ [_ [_ [_ [_ [_ R]]]]]]]]]]]]].
  exact (list_shaped _ _ _ _ _ _ _ R).
Qed.

Theorem front_dangles : all_of (everywhere dangles_well) (r_exprs r).
Proof.
  pose proof root_attached as W.
  destruct (front_end_reads _ _ _ H) as [cs [e [lk [l [b [q [g [Et [-> [-> [Ke [B [N R]]]]]]]]]]]]].
  eapply list_dangles; [exact W| |exact R|].
  - rewrite Et. intros k cs E. injection E as <- <-. reflexivity.
  - apply (all_at_node t q R_EXPRESSION_LIST l). rewrite Et.
    destruct (r_bom r).
    + destruct B as [y [-> [_ [-> ->]]]]. reflexivity.
    + destruct B as [-> [-> ->]]. reflexivity.
Qed.

Theorem front_chains : all_of (everywhere chain_clear) (r_exprs r).
Proof.
  pose proof root_attached as W.
  destruct (front_end_reads _ _ _ H) as [cs [e [lk [l [b [q [g [Et [-> [-> [Ke [B [N R]]]]]]]]]]]]].
  eapply list_chains; [exact W| |exact R|].
  - rewrite Et. intros k cs E. injection E as <- <-. reflexivity.
  - apply (all_at_node t q R_EXPRESSION_LIST l). rewrite Et.
    destruct (r_bom r).
    + destruct B as [y [-> [_ [-> ->]]]]. reflexivity.
    + destruct B as [-> [-> ->]]. reflexivity.
Qed.

Theorem front_placed o : root_tables_clear o r -> root_placed o r.
Proof.
  unfold root_tables_clear, root_placed. intros T. pose proof front_dangles as D. clear H.
  eapply all_placed; eauto. apply Forall_forall. intros e _. apply dangles_placed.
Qed.
End Root.

(** * The source *)

Section GreenInd.
  Variable P : green -> Prop.
  Variable Hnode : forall k cs, Forall P cs -> P (GNode k cs).
  Variable Htok : forall t, P (GTok t).
  Fixpoint green_ind2 (g : green) : P g :=
    match g with
    | GNode k cs => Hnode k cs
        ((fix all (l : list green) : Forall P l :=
            match l with [] => Forall_nil P | x :: r => Forall_cons x (green_ind2 x) (all r) end) cs)
    | GTok t => Htok t
    end.
End GreenInd.
Fixpoint open_all (l : list green) : option (list syn) :=
  match l with
  | [] => Some []
  | x :: r =>
    match open_green x, open_all r with
    | Some y, Some z => Some (y :: z)
    | _, _ => None
    end
  end.
Lemma open_node k cs :
  open_green (GNode k cs) = match open_all cs with Some ss => Some (Node k ss) | None => None end.
Proof.
  cbn [open_green].
  assert (E : (fix all (l : list green) : option (list syn) :=
             match l with
             | [] => Some []
             | x :: r =>
               match open_green x, all r with
               | Some y, Some z => Some (y :: z)
               | _, _ => None
               end
             end) cs = open_all cs).
  { induction cs as [|x r IH]; [reflexivity|]. cbn [open_all]. rewrite IH. reflexivity. }
  rewrite E. reflexivity.
Qed.

Lemma open_green_tokens g : forall s, open_green g = Some s ->
  map take_apart (tokens g) = map Some (syn_tokens s).
Proof.
  induction g as [k cs IH|t] using green_ind2; intros s H.
  - rewrite open_node in H. destruct (open_all cs) as [ss|] eqn:E; [|discriminate].
    injection H as <-. cbn [tokens syn_tokens]. revert ss E.
    induction IH as [|c r Hc _ IHr]; intros ss E; cbn in E.
    + injection E as <-. reflexivity.
    + destruct (open_green c) as [y|]; [|discriminate].
      destruct (open_all r) as [z|]; [|discriminate]. injection E as <-.
      cbn [flat_map]. rewrite !map_app, (Hc y eq_refl), (IHr z eq_refl). reflexivity.
  - cbn in *. destruct (take_apart t); [|discriminate]. injection H as <-. reflexivity.
Qed.
(** Every parse can be opened. *)
Lemma open_green_some g : forall ps, map take_apart (tokens g) = map Some ps ->
  exists s, open_green g = Some s.
Proof.
  induction g as [k cs IH|t] using green_ind2; intros ps H.
  - rewrite open_node. enough (E : exists ss, open_all cs = Some ss).
    { destruct E as [ss ->]. eauto. }
    cbn [tokens] in H. revert ps H. induction IH as [|c r Hc _ IHr]; intros ps H; cbn; [eauto|].
    cbn [flat_map] in H. rewrite map_app in H. symmetry in H.
    apply map_eq_app in H as [a [b [-> [Ha Hb]]]].
    destruct (Hc a (eq_sym Ha)) as [y ->]. destruct (IHr b (eq_sym Hb)) as [z ->]. eauto.
  - cbn in *. destruct (take_apart t); [eauto|]. destruct ps; discriminate.
Qed.

(** The text of a comment is found where the comment is. *)
Lemma placed_slices src tr xs : forall pre post,
  src = pre ++ pieces_text xs ++ post ->
  map (fun x => slice (fst (fst x)) (snd (fst x)) src) (placed_comments (place tr (blen pre) xs))
  = map Some (comments_in xs).
Proof.
  induction xs as [|[k x] r IH]; intros pre post E; [reflexivity|].
  unfold pieces_text in E. cbn [flat_map snd] in E. fold (pieces_text r) in E.
  rewrite <- app_assoc in E.
  cbn [place]. unfold placed_comments. cbn [flat_map pl_kind]. fold placed_comments.
  assert (IH' := IH (pre ++ x) post). rewrite blen_app, <- app_assoc in IH'. specialize (IH' E).
  rewrite map_app. change (flat_map _ (place tr (blen pre + blen x) r))
    with (placed_comments (place tr (blen pre + blen x) r)). rewrite IH'.
  destruct k; cbn [map app comments_in flat_map pl_pos pl_text fst snd]; try reflexivity.
  rewrite (slice_mid src pre x (pieces_text r ++ post) E). reflexivity.
Qed.
Lemma placed_comments_app a b : placed_comments (a ++ b) = placed_comments a ++ placed_comments b.
Proof. apply flat_map_app. Qed.
Lemma trivia_slices src ps : forall pre,
  src = pre ++ flat_map parts_text ps ->
  map (fun x => slice (fst (fst x)) (snd (fst x)) src)
    (placed_comments (placed_trivia (blen pre) ps))
  = map Some (flat_map token_comments ps).
Proof.
  induction ps as [|p r IH]; intros pre E; [reflexivity|].
  cbn [flat_map] in E. cbn [placed_trivia flat_map]. rewrite !placed_comments_app, !map_app.
  pose proof (IH (pre ++ parts_text p)) as I. rewrite blen_app, <- app_assoc in I.
  rewrite (I E). clear I. unfold token_comments. rewrite map_app, <- app_assoc.
  unfold parts_text in E. rewrite <- !app_assoc in E.
  rewrite (placed_slices src false (p_leading p) pre _ E).
  rewrite (app_assoc pre), (app_assoc (pre ++ _)) in E.
  pose proof (placed_slices src true (p_trailing p) _ _ E) as T. rewrite !blen_app in T.
  rewrite T. reflexivity.
Qed.

Section Source.
Variables (src : text) (t : ts) (g : green) (s : syn).
Hypothesis W : well_parsed src t.
Hypothesis P : parse src false t = Some (g, false).
Hypothesis O : open_green g = Some s.

Lemma source_comments_eq : syn_comments s = source_comments src t.
Proof.
  pose proof (open_green_tokens g s O) as T.
  destruct (tokens_and_trivia_holds src t g W P) as [ps [T' [Fm _]]].
  rewrite T' in T. assert (ps = syn_tokens s) as ->.
  { revert T. generalize (syn_tokens s). clear. induction ps as [|p r IH]; intros [|q l] H;
      try discriminate H; [reflexivity|]. cbn in H. injection H as -> H. f_equal. auto. }
  pose proof (comments_kept_holds src t g _ W P T') as K.
  pose proof (trivia_slices src (syn_tokens s) [] (eq_sym Fm)) as S. cbn [blen] in S.
  fold (syn_comments s) in S.
  set (l := placed_comments _) in *. clearbody l.
  assert (E : forall l ls, map fst l = flat_map (fun l => match l with LCom s e => [(s, e)] | LTok _ _ _ => [] end) ls ->
    forall cs, map (fun x : nat * nat * bool => slice (fst (fst x)) (snd (fst x)) src) l = map Some cs ->
    cs = flat_map (fun l => match l with
                     | LTok _ _ _ => []
                     | LCom s e => match slice s e src with Some x => [x] | None => [] end
                     end) ls).
  { clear. intros l ls. revert l. induction ls as [|[k a b|a b] ls IH]; intros l H cs Hc; cbn in *.
    - destruct l; [|discriminate]. destruct cs; [reflexivity|discriminate].
    - eauto.
    - destruct l as [|x l]; [discriminate|]. cbn in H. injection H as Hx H.
      destruct cs as [|c cs]; [discriminate|]. cbn in Hc. injection Hc as Hc1 Hc.
      rewrite Hx in Hc1. cbn in Hc1. rewrite Hc1. cbn. f_equal. eauto. }
  exact (E l (leaves t) K _ S).
Qed.

Lemma source_tokens_eq : map token_of (syn_tokens s) = source_tokens src t ++ [tk EOF []].
Proof.
  pose proof (open_green_tokens g s O) as T.
  destruct (tokens_and_trivia_holds src t g W P) as [ps [T' [Fm [Ow [Sl _]]]]].
  rewrite T' in T. assert (ps = syn_tokens s) as ->.
  { revert T. generalize (syn_tokens s). clear. induction ps as [|p r IH]; intros [|q l] H;
      try discriminate H; [reflexivity|]. cbn in H. injection H as -> H. f_equal. auto. }
  assert (E : forall ps pos,
    Forall2 (fun p x => slice (snd (fst x)) (snd x) src = Some (p_own p)) ps (own_ranges pos ps) ->
    map token_of ps = flat_map (fun x => match slice (snd (fst x)) (snd x) src with
                                         | Some y => [tk (fst (fst x)) y]
                                         | None => []
                                         end) (own_ranges pos ps)).
  { clear. induction ps as [|p r IH]; intros pos F; [reflexivity|]. cbn [own_ranges] in F |- *.
    inversion F as [|? ? ? ? A B]. subst. cbn [flat_map map]. rewrite A.
    rewrite <- (IH _ B). reflexivity. }
  rewrite (E _ _ Sl), Ow, flat_map_app. clear. f_equal.
  - unfold source_tokens, token_leaves. induction (leaves t) as [|[k a b|a b] ls IH]; cbn.
    + reflexivity.
    + rewrite IH. reflexivity.
    + exact IH.
  - cbn [flat_map fst snd].
    pose proof (slice_mid src src [] []) as H. rewrite !app_nil_r in H. cbn [blen] in H.
    rewrite Nat.add_0_r in H. rewrite (H eq_refl). reflexivity.
Qed.
End Source.

Section Whole.
Variables (rf : bool) (src : text) (t : ts) (r : root).
Hypothesis W : well_parsed src t.
Hypothesis F : source_root rf src t = Some r.

Lemma source_root_front : exists g s,
  parse src false t = Some (g, false) /\ open_green g = Some s /\ front_end rf s = Some r.
Proof.
  unfold source_root in F. destruct (parse src false t) as [[g [|]]|]; try discriminate.
  destruct (open_green g) as [s|] eqn:O; [|discriminate]. exists g, s. auto.
Qed.
Theorem source_front_comments : Permutation (root_comments r) (source_comments src t).
Proof.
  destruct source_root_front as [g [s [P [O H]]]].
  rewrite <- (source_comments_eq src t g s W P O). exact (front_comments rf s r H).
Qed.
Theorem source_front_tokens : root_tokens r = source_tokens src t.
Proof.
  destruct source_root_front as [g [s [P [O H]]]].
  destruct (front_tokens rf s r H) as [e [_ E]].
  rewrite (source_tokens_eq src t g s W P O) in E. apply app_inj_tail in E as [E _]. auto.
Qed.
Theorem source_front_shaped : root_shaped r.
Proof. destruct source_root_front as [g [s [_ [_ H]]]]. exact (front_shaped rf s r H). Qed.
Theorem source_front_placed o : root_tables_clear o r -> root_placed o r.
Proof. destruct source_root_front as [g [s [_ [_ H]]]]. exact (front_placed rf s r H o). Qed.
End Whole.
