(** What the typed tree of a source holds: its tokens, every attached comment,
    the shapes of r.ungram. *)
From Coq Require Import List Arith Bool NArith Lia Permutation.
From Verif Require Import Text TextFacts SyntaxKind ParseModel ParseSpec FmtTree FmtSpec
  CommentsModel AstModel AstReads.
Import ListNotations.

(** * Paths *)

Lemma path_eqb_eq p q : path_eqb p q = true <-> p = q.
Proof.
  revert q. induction p as [|i p IH]; intros [|j q]; cbn; try (split; [discriminate|discriminate]).
  - split; reflexivity.
  - rewrite andb_true_iff, Nat.eqb_eq, IH. split; [intros [-> ->]; reflexivity|].
    intros H. injection H as -> ->. split; reflexivity.
Qed.
Lemma path_eqb_refl p : path_eqb p p = true.
Proof. apply path_eqb_eq. reflexivity. Qed.

Lemma at_path_app t a b :
  at_path t (a ++ b) = match at_path t b with Some u => at_path u a | None => None end.
Proof.
  induction a as [|i a IH]; cbn [app at_path].
  - destruct (at_path t b); reflexivity.
  - rewrite IH. destruct (at_path t b); reflexivity.
Qed.
Lemma at_path_child t s j :
  at_path t (s ++ [j]) =
  match t with
  | Node _ cs => match nth_error cs j with Some c => at_path c s | None => None end
  | Tok _ => None
  end.
Proof. rewrite at_path_app. cbn. destruct t; reflexivity. Qed.

(** * Tokens *)

Lemma leaf_tokens_spec cs ts :
  leaf_tokens cs = Some ts -> map token_of (flat_map syn_tokens cs) = ts.
Proof.
  revert ts. induction cs as [|[k l|x] cs IH]; intros ts H; cbn in H |- *.
  - injection H as <-. reflexivity.
  - discriminate H.
  - destruct (leaf_tokens cs) as [l|] eqn:E; [|discriminate H]. injection H as <-.
    rewrite (IH l eq_refl). reflexivity.
Qed.
Lemma with_separator_tokens c e : etokens (with_separator c e) = etokens e.
Proof. destruct e; reflexivity. Qed.
Lemma with_separator_comments c e : ecomments (with_separator c e) = ecomments e.
Proof. destruct e; reflexivity. Qed.
Lemma with_separator_sort c e : sort_of (with_separator c e) = sort_of e.
Proof. destruct e; reflexivity. Qed.
Lemma with_separator_shaped c e : shaped e -> shaped (with_separator c e).
Proof. destruct e; auto. Qed.
Lemma reads_sep_nonempty pl s q i g l es : reads_sep pl s q i g l es -> l <> [] -> es <> [].
Proof. intros R N. destruct R; [contradiction|discriminate|discriminate]. Qed.

Lemma reads_tokens pl p g t e : reads pl p g t e -> map token_of (syn_tokens t) = etokens e.
Proof.
  revert p g t e.
  apply (reads_mind pl
    (fun p g t e => map token_of (syn_tokens t) = etokens e)
    (fun s q i g l es => map token_of (flat_map syn_tokens l) = List.concat (map etokens es))
    (fun s q i g l es => map token_of (flat_map syn_tokens l) = commas (map etokens es)));
    intros; cbn [syn_tokens flat_map app map etokens opt_list List.concat commas];
    rewrite ?app_nil_r;
    repeat (rewrite ?map_app; cbn [map app]);
    repeat match goal with
    | H : map token_of _ = _ |- _ => rewrite H
    | H : token_of _ = _ |- _ => rewrite H
    end; rewrite <- ?app_assoc; cbn [map app]; try reflexivity.
  - apply leaf_tokens_spec. assumption.
  - rewrite with_separator_tokens.
    pose proof (reads_sep_nonempty _ _ _ _ _ _ _ H4 H3) as N.
    destruct es as [|e' es]; [contradiction|]. cbn [map]. reflexivity.
Qed.

(** * Shapes *)

Lemma reads_shaped pl p g t e : reads pl p g t e -> shaped e.
Proof.
  revert p g t e.
  apply (reads_mind pl
    (fun p g t e => shaped e)
    (fun s q i g l es => all_of (fun x => sort_of x = s /\ shaped x) es)
    (fun s q i g l es => all_of (fun x => sort_of x = s /\ shaped x) es));
    intros; cbn [shaped all_of opt_all]; auto.
  - destruct cs as [|[k' l|x] cs]; [contradiction|discriminate|]. cbn in H1.
    destruct (leaf_tokens cs); [|discriminate]. injection H1 as <-. discriminate.
  - rewrite with_separator_sort. auto using with_separator_shaped.
Qed.

(** * Comments *)

Section Gathered.
Variable pl : list placement.

(** The comments attached to nodes of a tree. *)
Definition own_texts (p : path) : list text :=
  map (fun q => d_text (pt_comment q))
    (placed_at pl Leading p ++ placed_at pl Dangling p ++ placed_at pl Trailing p).
Fixpoint gathered (p : path) (t : syn) : list text :=
  match t with
  | Tok _ => []
  | Node k cs =>
    (if is_list k then [] else own_texts p) ++
    (fix go (i : nat) (l : list syn) : list text :=
       match l with
       | [] => []
       | c :: r => gathered (i :: p) c ++ go (S i) r
       end) 0 cs
  end.
Fixpoint gathered_all (p : path) (i : nat) (l : list syn) : list text :=
  match l with
  | [] => []
  | c :: r => gathered (i :: p) c ++ gathered_all p (S i) r
  end.
Lemma gathered_node p k cs :
  gathered p (Node k cs) = (if is_list k then [] else own_texts p) ++ gathered_all p 0 cs.
Proof.
  cbn [gathered]. f_equal. generalize 0. induction cs as [|c r IH]; intros i; [reflexivity|].
  cbn [gathered_all]. rewrite IH. reflexivity.
Qed.

Lemma gathered_tok p x : gathered p (Tok x) = [].
Proof. reflexivity. Qed.

Lemma note_comments p g t inner inner' :
  Permutation inner inner' ->
  Permutation (wrap_comments (note pl p g t) inner) (own_texts p ++ inner').
Proof.
  intros H. unfold wrap_comments, note, own_texts. cbn [n_lead n_dang n_trail].
  rewrite !map_map. cbn [c_text comment_of]. rewrite !map_app.
  rewrite H, <- !app_assoc. apply Permutation_app_head.
  rewrite (app_assoc inner'), (Permutation_app_comm inner'), <- !app_assoc.
  apply Permutation_app_head, Permutation_app_comm.
Qed.
Lemma form_not_list k : form_of k <> FoNone -> is_list k = false.
Proof. destruct k; cbn; intros H; auto; contradiction H; reflexivity. Qed.

Lemma gathered_form p k cs f : form_of k = f -> f <> FoNone ->
  gathered p (Node k cs) = own_texts p ++ gathered_all p 0 cs.
Proof. intros H N. rewrite gathered_node, form_not_list; [reflexivity|congruence]. Qed.

Lemma leaf_gathered p cs ts i : leaf_tokens cs = Some ts -> gathered_all p i cs = [].
Proof.
  revert ts i. induction cs as [|[k l|x] cs IH]; intros ts i H; cbn in H |- *; auto; [discriminate|].
  destruct (leaf_tokens cs); [|discriminate]. eapply IH. reflexivity.
Qed.

Lemma reads_comments p g t e : reads pl p g t e -> Permutation (ecomments e) (gathered p t).
Proof.
  revert p g t e.
  apply (reads_mind pl
    (fun p g t e => Permutation (ecomments e) (gathered p t))
    (fun s q i g l es => Permutation (List.concat (map ecomments es)) (gathered_all q i l))
    (fun s q i g l es => Permutation (List.concat (map ecomments es)) (gathered_all q i l)));
    intros;
    try match goal with
    | F : form_of ?k = _ |- Permutation (ecomments ?e) (gathered ?p (Node ?k ?cs)) =>
      rewrite (gathered_form p k cs _ F) by discriminate; cbn [ecomments notes_of];
      apply note_comments
    end; subst; cbn [gathered_all map List.concat opt_list];
    rewrite ?app_nil_r, ?gathered_node, ?gathered_tok; cbn [is_list app]; rewrite ?app_nil_r;
    repeat match goal with
    | |- Permutation (_ ++ _) (_ ++ _) => apply Permutation_app; [assumption|]
    end; auto.
  - rewrite (leaf_gathered _ _ _ _ H1). reflexivity.
  - rewrite with_separator_comments. apply Permutation_app; assumption.
Qed.
End Gathered.

(** A comment attached to a node of the tree is gathered once. *)
Lemma placed_at_cons q pl h p :
  placed_at (q :: pl) h p =
  (if how_eqb (pt_how q) h && path_eqb (pt_path q) p then [q] else []) ++ placed_at pl h p.
Proof.
  unfold placed_at. cbn [filter]. destruct (how_eqb _ _ && path_eqb _ _); reflexivity.
Qed.
Lemma own_texts_other q pl p : pt_path q <> p -> own_texts (q :: pl) p = own_texts pl p.
Proof.
  intros N. unfold own_texts. rewrite !placed_at_cons.
  destruct (path_eqb (pt_path q) p) eqn:E; [apply path_eqb_eq in E; contradiction|].
  rewrite !andb_false_r. reflexivity.
Qed.
Lemma own_texts_here q pl :
  Permutation (own_texts (q :: pl) (pt_path q)) (d_text (pt_comment q) :: own_texts pl (pt_path q)).
Proof.
  unfold own_texts. rewrite !placed_at_cons, path_eqb_refl, !andb_true_r, !map_app.
  destruct (pt_how q); cbn [how_eqb app map].
  - reflexivity.
  - symmetry. apply Permutation_middle.
  - rewrite app_assoc. symmetry. rewrite app_assoc. apply Permutation_middle.
Qed.
Lemma gathered_outside q pl t : forall p,
  (forall s, pt_path q <> s ++ p) -> gathered (q :: pl) p t = gathered pl p t.
Proof.
  induction t as [k cs IH|x] using syn_ind'; intros p N; [|reflexivity].
  rewrite !gathered_node. f_equal.
  - destruct (is_list k); [reflexivity|]. apply own_texts_other. apply (N []).
  - generalize 0 as i. induction IH as [|c r Hc _ IHr]; intros i; [reflexivity|].
    cbn [gathered_all]. rewrite IHr. f_equal. apply Hc. intros s E. apply (N (s ++ [i])).
    rewrite E, <- app_assoc. reflexivity.
Qed.
Lemma app_inj_last {A} (s s' : list A) i j p : s ++ i :: p = s' ++ j :: p -> i = j.
Proof.
  intros H. apply (f_equal (@rev A)) in H. rewrite !rev_app_distr in H. cbn in H.
  rewrite <- !app_assoc in H. apply app_inv_head in H. cbn in H. injection H as H _. exact H.
Qed.
Lemma gathered_inside q pl t : forall p s k cs,
  pt_path q = s ++ p -> at_path t s = Some (Node k cs) -> is_list k = false ->
  Permutation (gathered (q :: pl) p t) (d_text (pt_comment q) :: gathered pl p t).
Proof.
  induction t as [k cs IH|x] using syn_ind'; intros p s k' cs' E A L.
  - rewrite !gathered_node. destruct s as [|j s _] using rev_ind.
    + cbn in A. injection A as -> ->. rewrite L. cbn in E. subst p.
      rewrite own_texts_here. cbn [app]. apply perm_skip, Permutation_app_head.
      match goal with |- Permutation ?a ?b => enough (a = b) as -> by reflexivity end.
      generalize 0 as i. clear. induction cs' as [|c r IHr]; intros i; [reflexivity|]. cbn [gathered_all].
      rewrite IHr. f_equal. apply gathered_outside. intros s H.
      apply (f_equal (@List.length nat)) in H. rewrite app_length in H. cbn in H. lia.
    + rewrite at_path_child in A. rewrite <- app_assoc in E. cbn [app] in E.
      assert (O : (if is_list k then [] else own_texts (q :: pl) p)
                  = (if is_list k then [] else own_texts pl p)).
      { destruct (is_list k); [reflexivity|]. apply own_texts_other. rewrite E. intros H.
        apply (f_equal (@List.length nat)) in H. rewrite app_length in H. cbn in H. lia. }
      rewrite O. clear O. rewrite Permutation_middle.
      apply Permutation_app_head.
      assert (G : forall l i, Forall (fun t => forall p s k cs, pt_path q = s ++ p ->
                  at_path t s = Some (Node k cs) -> is_list k = false ->
                  Permutation (gathered (q :: pl) p t) (d_text (pt_comment q) :: gathered pl p t)) l ->
                i <= j -> match nth_error l (j - i) with Some c => at_path c s | None => None end
                          = Some (Node k' cs') ->
                Permutation (gathered_all (q :: pl) p i l)
                  (d_text (pt_comment q) :: gathered_all pl p i l)).
      { intros l. induction l as [|c r IHr]; intros i F Le N.
        - destruct (j - i); discriminate N.
        - inversion F as [|? ? Fc Fr]. subst. cbn [gathered_all].
          destruct (Nat.eq_dec i j) as [->|Ne].
          + rewrite Nat.sub_diag in N. cbn in N.
            rewrite (Fc _ _ _ _ E N L). cbn [app]. apply perm_skip, Permutation_app_head.
            match goal with |- Permutation ?a ?b => enough (a = b) as -> by reflexivity end.
            assert (G : forall l i, j < i -> gathered_all (q :: pl) p i l = gathered_all pl p i l).
            { clear - E. intros l. induction l as [|c r IHr]; intros i Lt; [reflexivity|].
              cbn [gathered_all]. rewrite IHr by lia. f_equal. apply gathered_outside.
              intros s' H. rewrite E in H. apply app_inj_last in H. lia. }
            apply G. lia.
          + rewrite gathered_outside.
            2:{ intros s' H. rewrite E in H. apply app_inj_last in H. lia. }
            rewrite (IHr (S i)); [|assumption|lia|].
            * symmetry. apply Permutation_middle.
            * replace (j - i) with (S (j - S i)) in N by lia. exact N. }
      apply G; [assumption|lia|]. rewrite Nat.sub_0_r. exact A.
  - destruct s as [|j s _] using rev_ind; [discriminate A|].
    rewrite at_path_child in A. discriminate A.
Qed.
Lemma gathered_none t : forall p, gathered [] p t = [].
Proof.
  induction t as [k cs IH|x] using syn_ind'; intros p; [|reflexivity]. rewrite gathered_node.
  assert (H : forall i, gathered_all [] p i cs = []).
  { induction IH as [|c r Hc _ IHr]; intros i; [reflexivity|]. cbn [gathered_all].
    rewrite Hc, IHr. reflexivity. }
  rewrite H. destruct (is_list k); reflexivity.
Qed.

(** The node a comment is attached to is one that can have comments. *)
Definition target_ok (t : syn) (q : placement) : Prop :=
  exists k cs, at_path t (pt_path q) = Some (Node k cs) /\ is_list k = false.
Theorem all_gathered t pl :
  Forall (target_ok t) pl ->
  Permutation (gathered pl [] t) (map (fun q => d_text (pt_comment q)) pl).
Proof.
  intros F. induction F as [|q pl [k [cs [A L]]] _ IH].
  - rewrite gathered_none. reflexivity.
  - cbn [map]. rewrite <- IH.
    apply (gathered_inside q pl t [] (pt_path q) k cs); [rewrite app_nil_r; reflexivity|exact A|exact L].
Qed.
