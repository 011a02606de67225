(** No comment of a source is attached to an else clause: the placement rules
    see to the comments before [else] and after it (C59). *)
From Coq Require Import List Arith Bool NArith Lia.
From Verif Require Import Text SettingsModel SyntaxKind ParseModel ParseSpec FmtTree IrModel FmtModel FmtSpec
  CommentsModel CommentsSpec CommentsProofs AstModel AstReads AstProofs FrontProofs PortableSpec.
Import ListNotations.

(** * Placement *)

Section Placement.
Variable root : syn.

(** The else clause of an if statement with all its fields. *)
Definition else_at (p : path) : Prop :=
  exists e, p = 5 :: e /\ is_kind root R_IF_STATEMENT e = true /\
    is_kind root R_ELSE_CLAUSE p = true /\
    expression_field root 2 e <> None /\ expression_field root 4 e <> None /\
    expression_field root 1 p <> None /\
    (is_kind root R_IF_STATEMENT (1 :: p) = true -> expression_field root 4 (1 :: p) <> None).
Definition clear (x : how * path) : Prop := fst x = Leading -> ~ else_at (snd x).
Definition choice_clear (c : choice) : Prop := match c with Some x => clear x | None => True end.

Lemma kind_clear k p : is_kind root k p = true -> k <> R_ELSE_CLAUSE -> clear (Leading, p).
Proof.
  intros K N _ [e [_ [_ [E _]]]]. cbn [snd] in E. apply is_kind_node in K, E. congruence.
Qed.
Lemma expression_clear i e p : expression_field root i e = Some p -> clear (Leading, p).
Proof.
  unfold expression_field. destruct (node_kind root (i :: e)) as [k|] eqn:K; [|discriminate].
  destruct (is_expression k) eqn:X; [|discriminate]. intros H. injection H as <-.
  intros _ [e' [_ [_ [E _]]]]. cbn [snd] in E. apply is_kind_node in E. rewrite K in E.
  injection E as ->. discriminate X.
Qed.
Lemma trailing_clear p : clear (Trailing, p).
Proof. intros H. discriminate H. Qed.
Lemma dangling_clear p : clear (Dangling, p).
Proof. intros H. discriminate H. Qed.
Lemma body_clear i e b : expression_field root i e = Some b -> clear (place_body root b).
Proof.
  intros E. unfold place_body. destruct (is_kind root R_BRACED_EXPRESSIONS b).
  - destruct (first_expression root b) as [f|] eqn:F; [|apply dangling_clear].
    unfold first_expression in F. destruct (is_kind root R_EXPRESSION_LIST (1 :: b)); [|discriminate].
    exact (expression_clear _ _ _ F).
  - exact (expression_clear _ _ _ E).
Qed.
Lemma alternative_clear i e a : expression_field root i e = Some a -> choice_clear (place_alternative root a).
Proof.
  intros E. unfold place_alternative. destruct (is_kind root R_IF_STATEMENT a).
  - destruct (expression_field root 4 a) as [t|] eqn:T; [|exact I]. exact (body_clear _ _ _ T).
  - exact (body_clear _ _ _ E).
Qed.
Lemma or_else_clear a b : choice_clear a -> choice_clear b -> choice_clear (or_else a b).
Proof. destruct a; auto. Qed.
Ltac cases :=
  repeat match goal with
  | |- choice_clear (if ?b then _ else _) => destruct b eqn:?
  | |- choice_clear (match ?x with Some _ => _ | None => _ end) => destruct x eqn:?
  | |- choice_clear None => exact I
  end; cbn [choice_clear];
  eauto using body_clear, alternative_clear, expression_clear, trailing_clear, dangling_clear.
Ltac on_kind := eapply kind_clear; [eassumption|discriminate].
Lemma place_clear d : choice_clear (place_comment root d).
Proof.
  unfold place_comment. repeat apply or_else_clear.
  - unfold handle_for. cases; on_kind.
  - unfold handle_function. cases; on_kind.
  - unfold handle_while. cases; on_kind.
  - unfold handle_repeat. cases; on_kind.
  - unfold handle_if. cases.
  - unfold handle_else. cases.
  - unfold handle_paren. cases.
  - unfold handle_name_clause. cases. apply andb_true_iff in Heqb0 as [A _].
    intros _ [e [_ [_ [E _]]]]. cbn [snd] in E. apply is_kind_node in E. rewrite Heqo in E.
    injection E as ->. discriminate A.
  - unfold handle_argument. cases. unfold field_of_kind in Heqo.
    destruct (is_kind root R_ARGUMENT_NAME_CLAUSE (0 :: d_enclosing d)) eqn:X; [|discriminate].
    injection Heqo as <-. on_kind.
  - unfold handle_hole. destruct (d_preceding d) as [h|]; [|exact I].
    unfold argument_node. destruct (is_kind root R_ARGUMENT h) eqn:X; [|exact I]. cbn [andb].
    cases; try on_kind.
    eapply kind_clear; [eapply whole_argument_kind; eassumption|discriminate].
Qed.

(** A node and the one it stands in, lists passed over. *)
Definition linked (q p : path) : Prop :=
  forall i p', p = i :: p' -> p' = q \/ exists k, node_kind root p' = Some k /\ is_list k = true.
Lemma path_eqb_refl p : path_eqb p p = true.
Proof. induction p as [|i p IH]; [reflexivity|]. cbn. rewrite Nat.eqb_refl. exact IH. Qed.
Lemma or_else_some a b : b <> None -> or_else a b <> None.
Proof. destruct a; [discriminate|auto]. Qed.
(** A comment before an else clause is taken care of. *)
Lemma before_else_placed d f :
  d_following d = Some f -> linked (d_enclosing d) f -> else_at f -> place_comment root d <> None.
Proof.
  intros F L [e [Ef [Ki [Ke [F2 [F4 [F1 Fa]]]]]]].
  assert (E : d_enclosing d = e).
  { destruct (L 5 e Ef) as [<-|[k [K Li]]]; [reflexivity|]. apply is_kind_node in Ki.
    rewrite Ki in K. injection K as <-. discriminate Li. }
  unfold place_comment. do 4 apply or_else_some.
  destruct (handle_if root d) as [x|] eqn:H; [cbn; discriminate|exfalso].
  unfold handle_if in H. rewrite E, Ki in H.
  destruct (expression_field root 2 e) as [c|]; [|contradiction].
  destruct (expression_field root 4 e) as [t|] eqn:T; [|contradiction].
  destruct (is_path c (d_preceding d) && is_next R_PAREN (d_next d)); [discriminate|].
  destruct (is_path t (d_following d)); [discriminate|].
  unfold field_of_kind in H. rewrite <- Ef, Ke in H.
  destruct (expression_field root 1 f) as [a|] eqn:A; [|contradiction].
  rewrite F in H. cbn [is_path] in H. rewrite path_eqb_refl in H.
  destruct (d_own d); [|discriminate]. unfold place_alternative in H.
  assert (Ea : a = 1 :: f).
  { unfold expression_field in A. destruct (node_kind root (1 :: f)); [|discriminate].
    destruct (is_expression k); [|discriminate]. injection A as <-. reflexivity. }
  subst a. destruct (is_kind root R_IF_STATEMENT (1 :: f)); [|discriminate].
  destruct (expression_field root 4 (1 :: f)); [discriminate|]. exact (Fa eq_refl eq_refl).
Qed.
Definition placed_clear (q : placement) : Prop := clear (pt_how q, pt_path q).
Lemma add_clear d : (forall f, d_following d = Some f -> linked (d_enclosing d) f) ->
  placed_clear (add_comment root d).
Proof.
  intros L. unfold placed_clear, add_comment. pose proof (place_clear d) as C.
  pose proof (before_else_placed d) as B.
  destruct (place_comment root d) as [[h p]|]; [exact C|]. clear C.
  assert (X : forall f, d_following d = Some f -> clear (Leading, f)).
  { intros f F _ E. exact (B f F (L f F) E eq_refl). }
  unfold default_place.
  destruct (d_own d), (d_preceding d), (d_following d) as [f|]; cbn [pt_how pt_path];
    auto using trailing_clear, dangling_clear.
Qed.

(** * The walk *)

Variable rf : bool.
Variables (k0 : kind) (cs0 : list syn).
Hypothesis root_eq : root = Node k0 cs0.
Hypothesis root_list : is_list k0 = false.

Definition chain (l : list path) : Prop :=
  forall i a b, nth_error l i = Some a -> nth_error l (S i) = Some b -> linked a b.
Definition sound (v : visitor) : Prop := Forall placed_clear (v_placed v) /\ chain (v_parents v).

Lemma chain_snoc l p : chain l -> linked (last l []) p -> chain (l ++ [p]).
Proof.
  intros C L i a b A B.
  destruct (Nat.lt_ge_cases (S i) (List.length l)) as [H|H].
  - rewrite nth_error_app1 in A, B by lia. exact (C i a b A B).
  - assert (S i = List.length l) as E.
    { assert (S i < List.length (l ++ [p])) by (apply nth_error_Some; congruence).
      rewrite app_length in H0. cbn in H0. lia. }
    rewrite nth_error_app2, E, Nat.sub_diag in B by lia. cbn in B. injection B as <-.
    rewrite nth_error_app1 in A by lia.
    destruct l as [|x l _] using rev_ind; [discriminate E|]. rewrite last_last in L.
    rewrite app_length in E. cbn in E. rewrite nth_error_app2 in A by lia.
    replace (i - List.length l) with 0 in A by lia. cbn in A. injection A as <-. exact L.
Qed.
Lemma chain_app a b : chain (a ++ b) -> chain a.
Proof.
  intros C i x y X Y. apply (C i x y).
  - rewrite nth_error_app1; [exact X|]. apply nth_error_Some. congruence.
  - rewrite nth_error_app1; [exact Y|]. apply nth_error_Some. congruence.
Qed.
Lemma linked_root q : linked q [].
Proof. intros i p H. discriminate H. Qed.

Lemma sound_enter p v : inv root v -> sound v -> linked (last (v_parents v) []) p ->
  sound (enter root p v).
Proof.
  intros [_ _ _ Pe _ _ _] [Pl Ch] L. split.
  - assert (F : Forall placed_clear (v_placed v ++
      map (fun d => add_comment root (with_following (Some p) d)) (v_pending v))).
    { apply Forall_app. split; [exact Pl|]. apply Forall_map. eapply Forall_impl; [|exact Pe].
      intros d [_ [_ E]]. apply add_clear. cbn. intros f H. injection H as <-. rewrite E. exact L. }
    unfold enter. destruct (v_following v) as [[|i]|]; [exact F|exact Pl|exact F].
  - unfold enter. destruct (v_following v) as [[|i]|]; cbn; apply chain_snoc; assumption.
Qed.
Lemma sound_token x v : inv root v -> sound v -> sound (visit_token root rf x v).
Proof.
  intros [_ _ _ _ Fl _ _] [Pl Ch]. unfold visit_token.
  set (gap := _ ++ p_leading x). set (own := match v_last v with Some _ => false | None => true end).
  set (cs := decorate _ _ _ _ _ _ _).
  assert (C : Forall (fun d => d_enclosing d = enclosing v) cs).
  { unfold cs. clearbody gap own. generalize 0 as n. generalize own as o. clear.
    induction gap as [|[[] y] r IH]; intros o n; cbn [decorate]; auto. }
  clearbody cs. clear gap own.
  destruct (v_following v) as [i|] eqn:Ef; [|split; assumption].
  specialize (Fl ltac:(discriminate)). split; [|exact Ch]. cbn. rewrite Fl. cbn [app].
  apply Forall_app. split; [exact Pl|]. apply Forall_map. eapply Forall_impl; [|exact C].
  intros d E. apply add_clear. cbn. intros f H. rewrite E. unfold enclosing. rewrite Ef.
  destruct i as [|i].
  - destruct rf; [|discriminate]. injection H as <-. apply linked_root.
  - assert (B : i < List.length (v_parents v)).
    { assert (S i < List.length (v_parents v)) by (apply nth_error_Some; congruence). lia. }
    destruct (nth_error (v_parents v) i) as [a|] eqn:A; [|apply nth_error_None in A; lia].
    match goal with |- linked ?x f => replace x with a end; [exact (Ch i a f A H)|].
    symmetry. apply nth_error_nth, A.
Qed.
Lemma sound_leave p ps v : sound v -> v_parents v = ps ++ [p] -> sound (leave root p v).
Proof.
  intros [Pl Ch] E. split.
  - unfold leave. cbn. apply Forall_app. split; [exact Pl|]. apply Forall_map, Forall_forall.
    intros d _. apply add_clear. cbn. discriminate.
  - unfold leave. cbn. rewrite E in *. rewrite removelast_last. exact (chain_app _ _ Ch).
Qed.

Definition visit_sound (t : syn) : Prop := forall p v,
  at_path root p = Some t -> entered root p v -> linked (last (v_parents v) []) p ->
  inv root v -> sound v -> sound (visit root rf p t v).
Lemma visit_all_sound p k all l : forall i v,
  Forall visit_sound l -> at_path root p = Some (Node k all) ->
  (forall j c, nth_error l j = Some c -> nth_error all (i + j) = Some c) ->
  v_parents v <> [] ->
  (i = 0 -> p <> [] -> is_kind root R_BINARY_EXPRESSION p = true -> exists j, v_following v = Some (S j)) ->
  last (v_parents v) [] = p \/ is_list k = true ->
  inv root v -> sound v -> sound (visit_all root rf p i l v).
Proof.
  intros i v F At. revert i v. induction F as [|c r Hc F IH]; intros i v N Pn Sn La I So; [exact So|].
  cbn [visit_all].
  assert (Ac : at_path root (i :: p) = Some c).
  { cbn [at_path]. rewrite At. specialize (N 0 c eq_refl). rewrite Nat.add_0_r in N. exact N. }
  assert (En : entered root (i :: p) v).
  { split; [intros _; exact Pn|]. destruct i as [|i]; [|left; apply starts_later].
    destruct p as [|a p]; [left; apply starts_top|].
    destruct (is_kind root R_BINARY_EXPRESSION (a :: p)) eqn:B; [right; auto|left; apply starts_child, B].
    apply Sn; [reflexivity|discriminate|reflexivity]. }
  destruct (visit_holds root rf k0 cs0 root_eq root_list c (i :: p) v Ac En I) as [I1 [P1 _]].
  apply IH.
  - intros j d Hj. specialize (N (S j) d Hj). rewrite Nat.add_succ_comm. exact N.
  - rewrite P1. exact Pn.
  - discriminate.
  - rewrite P1. exact La.
  - exact I1.
  - apply Hc; try assumption. intros j p' E. injection E as <- <-.
    destruct La as [La|La]; [left; symmetry; exact La|right].
    exists k. split; [unfold node_kind; rewrite At; reflexivity|exact La].
Qed.
Lemma visit_stays t : visit_sound t.
Proof.
  induction t as [k cs IH|x] using syn_ind'; intros p v At En L I So.
  - rewrite visit_node. destruct (is_list k) eqn:Li.
    + apply (visit_all_sound p k cs cs 0 v IH At); auto.
      * apply (proj1 En). intros ->. rewrite root_eq in At. injection At as -> _.
        rewrite root_list in Li. discriminate Li.
      * intros _ _ B. apply is_kind_node in B. unfold node_kind in B. rewrite At in B.
        injection B as ->. discriminate Li.
    + destruct (inv_enter root p v) as [I1 [P1 E1]]; [exists k, cs; auto|exact En|exact I|].
      pose proof (sound_enter p v I So L) as So1.
      assert (Pn : v_parents (enter root p v) <> []) by (rewrite P1; destruct (v_parents v); discriminate).
      assert (Sn : 0 = 0 -> p <> [] -> is_kind root R_BINARY_EXPRESSION p = true ->
        exists j, v_following (enter root p v) = Some (S j))
        by (intros _ Np _; apply enter_following, (proj1 En), Np).
      destruct (visit_all_ok root rf p k cs cs 0 (enter root p v)) as [I2 [P2 _]];
        [apply Forall_forall; intros c _; exact (visit_holds root rf k0 cs0 root_eq root_list c)
        |exact At|auto|exact Pn|exact Sn|exact I1|].
      apply (sound_leave p (v_parents v)); [|congruence].
      apply (visit_all_sound p k cs cs 0 _ IH At); auto. left. rewrite P1. apply last_last.
  - exact (sound_token x v I So).
Qed.
Theorem attached_clear : Forall placed_clear (attached root rf).
Proof.
  unfold attached, finish.
  assert (En : entered root [] new_visitor) by (split; [contradiction|left; apply starts_root]).
  assert (S0 : sound new_visitor) by (split; [constructor|intros [|i] a b A; discriminate A]).
  destruct (visit_stays root [] new_visitor eq_refl En (linked_root _) (inv_new root) S0) as [Pl _].
  set (v := visit root rf [] root new_visitor) in *. clearbody v.
  apply Forall_app. split; [exact Pl|]. apply Forall_map.
  set (ps := match v_last v with Some _ => _ | None => _ end). clearbody ps.
  generalize 0 as n. generalize false as own.
  induction ps as [|[[] y] r IH]; intros own n; cbn [decorate]; auto.
  constructor; [|apply IH]. apply add_clear. cbn. discriminate.
Qed.
End Placement.

(** * The typed tree *)

Section Reads.
Variable root : syn.
Variable pl : list placement.
Hypothesis pl_well : Forall (placed_well root) pl.
Hypothesis pl_clear : Forall (placed_clear root) pl.
Hypothesis root_kind : forall k cs, root = Node k cs -> form_of k = FoNone.

Ltac child := match goal with
  | A : at_path root ?p = Some (Node _ ?cs) |- at_path root (?i :: ?p) = Some _ =>
    exact (at_child root p _ cs i _ A eq_refl)
  end.
Lemma separator_attached c e : everywhere well_attached e -> everywhere well_attached (with_separator c e).
Proof. destruct e; auto. Qed.
Lemma no_dang p k cs g t : at_path root p = Some (Node k cs) -> form_of k <> FoNone ->
  k <> R_BRACED_EXPRESSIONS -> cs = [] \/ existsb has_node cs = true -> n_dang (note pl p g t) = [].
Proof.
  intros A F B N. apply (note_dang pl). eapply (no_dangling root pl pl_well root_kind); eauto.
Qed.
Lemma expression_here i p t g e : at_path root (i :: p) = Some t -> reads pl (i :: p) g t e ->
  sort_of e = SoExpr -> expression_field root i p <> None.
Proof.
  intros A R S. destruct (reads_expression _ _ _ _ _ R S) as [k [cs [-> E]]].
  unfold expression_field, node_kind. rewrite A, E. discriminate.
Qed.
Lemma form_if k : form_of k = FoIf -> k = R_IF_STATEMENT.
Proof. destruct k; intros H; try discriminate H; reflexivity. Qed.
Lemma form_else k : form_of k = FoElse -> k = R_ELSE_CLAUSE.
Proof. destruct k; intros H; try discriminate H; reflexivity. Qed.
Lemma kind_here p k cs : at_path root p = Some (Node k cs) -> is_kind root k p = true.
Proof. intros A. unfold is_kind, node_kind. rewrite A. apply kind_eqb_refl. Qed.
(** An if statement has its body. *)
Lemma if_fields p g t e : reads pl p g t e -> at_path root p = Some t ->
  is_kind root R_IF_STATEMENT p = true -> expression_field root 4 p <> None.
Proof.
  intros R A K. apply is_kind_node in K. unfold node_kind in K. rewrite A in K.
  destruct R; injection K as ->; try (cbn in H; discriminate H);
    (eapply expression_here; [child|eassumption|assumption]).
Qed.
Lemma else_here p k i a c c' z t t' e e' g1 g2 g3 :
  at_path root p = Some (Node k [Tok i; Tok a; c; Tok z; t; e]) -> form_of k = FoIf ->
  reads pl (2 :: p) g1 c c' -> sort_of c' = SoExpr -> reads pl (4 :: p) g2 t t' -> sort_of t' = SoExpr ->
  reads pl (5 :: p) g3 e e' -> sort_of e' = SoElse -> else_at root (5 :: p).
Proof.
  intros A F Rc Sc Rt St Re Se. apply form_if in F. subst k.
  assert (Ae : at_path root (5 :: p) = Some e) by child.
  exists p. split; [reflexivity|]. split; [exact (kind_here _ _ _ A)|].
  destruct Re; cbn in Se; try discriminate Se. apply form_else in H. subst k.
  split; [exact (kind_here _ _ _ Ae)|].
  split; [eapply expression_here; [child|eassumption|assumption]|].
  split; [eapply expression_here; [child|eassumption|assumption]|].
  split; [eapply expression_here; [child|eassumption|assumption]|].
  eapply if_fields; [eassumption|child].
Qed.
Lemma reads_attached p g t e : reads pl p g t e -> at_path root p = Some t ->
  (sort_of e = SoElse -> else_at root p) -> everywhere well_attached e.
Proof.
  revert p g t e.
  apply (reads_mind pl
    (fun p g t e => at_path root p = Some t -> (sort_of e = SoElse -> else_at root p) ->
       everywhere well_attached e)
    (fun s q i g l es => s <> SoElse -> all_at root q i l -> all_of (everywhere well_attached) es)
    (fun s q i g l es => s <> SoElse -> all_at root q i l -> all_of (everywhere well_attached) es));
    intros; cbn [everywhere all_of opt_all well_attached notes_of];
    repeat match goal with
    | |- _ /\ _ => split
    | |- True => exact I
    | |- n_dang (note _ ?p _ _) = [] =>
      eapply no_dang; [eassumption|congruence|intros ->; discriminate|];
      first [left; reflexivity
            |right; cbn [existsb has_node]; rewrite ?orb_true_iff; 
             repeat match goal with R : reads pl _ _ ?x _ |- context [has_node ?x] =>
               rewrite (reads_has_node _ _ _ _ _ R) end; rewrite ?orb_true_r; auto]
    | IH : at_path root ?q = Some _ -> _ -> everywhere well_attached ?e |- everywhere well_attached ?e =>
      apply IH; [child|first [congruence|intros _; eapply else_here; eassumption]]
    end.
  all: try (match goal with IH : _ -> all_at root (1 :: ?p) 0 ?l -> _ |- all_of _ _ =>
    apply IH; [discriminate|eapply all_at_node; child] end).
  - apply no_leading. intros x X L P.
    apply (proj1 (Forall_forall _ _) pl_clear x X L). cbn [snd]. rewrite P. apply H5. reflexivity.
  - apply H0; [eapply all_at_head; eassumption|congruence].
  - apply H3; [assumption|]. eapply all_at_tail. eassumption.
  - apply H0; [eapply all_at_head; eassumption|congruence].
  - apply separator_attached, H0; [eapply all_at_head; eassumption|congruence].
  - apply H5; [assumption|]. eapply all_at_tail, all_at_tail. eassumption.
Qed.
End Reads.

Lemma list_attached pl root s q i g l es :
  Forall (placed_well root) pl -> Forall (placed_clear root) pl ->
  (forall k cs, root = Node k cs -> form_of k = FoNone) -> s <> SoElse ->
  reads_list pl s q i g l es -> all_at root q i l -> all_of (everywhere well_attached) es.
Proof.
  intros W C K N. induction 1 as [|s q i g x e r es R So _ IH]; cbn; [auto|]. intros A. split.
  - eapply reads_attached; eauto; [eapply all_at_head, A|congruence].
  - apply IH; [exact N|]. eapply all_at_tail, A.
Qed.
Lemma front_attached rf t r : front_end rf t = Some r -> all_of (everywhere well_attached) (r_exprs r).
Proof.
  intros H. destruct (front_end_reads _ _ _ H) as [cs [e [lk [l [b [q [g [Et [Ec [El [Ke [B [N R]]]]]]]]]]]]].
  eapply list_attached; [| | | |exact R|].
  - exact (attached_well t rf R_ROOT cs Et eq_refl).
  - exact (attached_clear t rf R_ROOT cs Et eq_refl).
  - rewrite Et. intros k cs' E. injection E as <- <-. reflexivity.
  - discriminate.
  - apply (all_at_node t q R_EXPRESSION_LIST l). rewrite Et, Ec, El.
    destruct (r_bom r).
    + destruct B as [y [-> [_ [-> ->]]]]. reflexivity.
    + destruct B as [-> [-> ->]]. reflexivity.
Qed.
Lemma source_attached rf src t r : source_root rf src t = Some r ->
  all_of (everywhere well_attached) (r_exprs r).
Proof.
  intros F. destruct (source_root_front rf src t r F) as [g [s [_ [_ H]]]]. exact (front_attached rf s r H).
Qed.

(** * [else_free] *)

Definition free_if (e : expr) : Prop :=
  everywhere well_attached e -> everywhere else_plain e -> everywhere else_free e.
Lemma all_free l : Forall free_if l -> all_of (everywhere well_attached) l ->
  all_of (everywhere else_plain) l -> all_of (everywhere else_free) l.
Proof. induction 1 as [|x r Hx _ IH]; cbn; [auto|]. intros [A B] [C D]. split; auto. Qed.
Lemma opt_free x : Popt free_if x -> opt_all (everywhere well_attached) x ->
  opt_all (everywhere else_plain) x -> opt_all (everywhere else_free) x.
Proof. destruct x; cbn; auto. Qed.
Lemma attached_free e : free_if e.
Proof.
  induction e using expr_ind'; intros A B; cbn [everywhere well_attached else_plain else_free] in *;
    repeat match goal with H : _ /\ _ |- _ => destruct H end;
    repeat match goal with |- _ /\ _ => split end; eauto using all_free, opt_free.
  all: unfold else_plain in *; cbn [own_tokens notes_of] in *;
    repeat match goal with H : _ /\ _ |- _ => destruct H end; repeat split; cbn [own_tokens notes_of]; auto.
Qed.
Lemma source_free rf src t r : source_root rf src t = Some r -> root_else_plain r -> root_else_free r.
Proof.
  intros F [B P]. split; [exact B|]. pose proof (source_attached rf src t r F) as A. clear F B.
  apply all_free; [|exact A|exact P]. apply Forall_forall. intros e _. apply attached_free.
Qed.
