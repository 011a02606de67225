(** The walk attaches every comment once, to a node that can have it, and lets
    it dangle only in a node with nothing inside. *)
From Coq Require Import List Arith Bool NArith Lia.
From Verif Require Import Text TextFacts SyntaxKind ParseModel ParseSpec FmtTree FmtSpec
  CommentsModel CommentsSpec.
Import ListNotations.

(** * Every comment once *)

Lemma decorate_texts gap encl prec next own lines ps :
  map d_text (decorate gap encl prec next own lines ps) = comments_in ps.
Proof.
  revert own lines. induction ps as [|[[] x] r IH]; intros own lines; cbn; auto.
  f_equal. apply IH.
Qed.

Definition pt_text (q : placement) : text := d_text (pt_comment q).
Lemma add_comment_text root d : pt_text (add_comment root d) = d_text d.
Proof.
  unfold add_comment. destruct (match place_comment root d with Some x => x | None => _ end).
  reflexivity.
Qed.
Lemma add_following_texts root f l :
  map pt_text (map (fun d => add_comment root (with_following f d)) l) = map d_text l.
Proof.
  rewrite map_map. apply map_ext. intros d. rewrite add_comment_text. reflexivity.
Qed.

Definition last_comments (v : visitor) : list text :=
  match v_last v with Some ps => comments_in ps | None => [] end.
Definition total (v : visitor) : list text :=
  map pt_text (v_placed v) ++ map d_text (v_pending v) ++ last_comments v.

Lemma total_flush root f v : total (flush root f v) = total v.
Proof.
  unfold total, flush. cbn. rewrite map_app, add_following_texts, <- app_assoc. reflexivity.
Qed.
Lemma total_enter root p v : total (enter root p v) = total v.
Proof.
  unfold enter. destruct (v_following v) as [[|i]|]; try apply (total_flush root (Some p) v).
  reflexivity.
Qed.
Lemma total_leave root p v : total (leave root p v) = total v.
Proof. exact (total_flush root None (set_following None (set_parents (removelast (v_parents v)) v))). Qed.

Lemma comments_in_app a b : comments_in (a ++ b) = comments_in a ++ comments_in b.
Proof. apply flat_map_app. Qed.

Lemma total_token root rf x v : total (visit_token root rf x v) = total v ++ token_comments x.
Proof.
  unfold visit_token. set (v1 := {| v_pending := _ |}).
  assert (E : total v1 = total v ++ token_comments x).
  { unfold total, v1, last_comments, token_comments. cbn.
    rewrite map_app, decorate_texts, comments_in_app, <- !app_assoc.
    destruct (v_last v); reflexivity. }
  rewrite <- E. clearbody v1.
  destruct (v_following v) as [i|]; [|reflexivity].
  exact (total_flush root _ v1).
Qed.

(** The children of a node. *)
Fixpoint visit_all (root : syn) (rf : bool) (p : path) (i : nat) (l : list syn) (v : visitor) :=
  match l with
  | [] => v
  | c :: r => visit_all root rf p (S i) r (visit root rf (i :: p) c v)
  end.
Lemma visit_node root rf p k cs v :
  visit root rf p (Node k cs) v =
  if is_list k then visit_all root rf p 0 cs v
  else leave root p (visit_all root rf p 0 cs (enter root p v)).
Proof.
  cbn [visit].
  assert (E : forall i v, (fix go (i : nat) (l : list syn) (v : visitor) {struct l} : visitor :=
     match l with
     | [] => v
     | c :: r => go (S i) r (visit root rf (i :: p) c v)
     end) i cs v = visit_all root rf p i cs v).
  { induction cs as [|c r IH]; intros i w; [reflexivity|]. cbn [visit_all]. apply IH. }
  rewrite !E. reflexivity.
Qed.

Lemma total_visit root rf t : forall p v,
  total (visit root rf p t v) = total v ++ syn_comments t.
Proof.
  induction t as [k cs IH|x] using syn_ind'; intros p v.
  - assert (A : forall i v, total (visit_all root rf p i cs v)
                            = total v ++ syn_comments (Node k cs)).
    { unfold syn_comments. cbn [syn_tokens].
      induction IH as [|c r Hc _ IHr]; intros i w; cbn [visit_all flat_map].
      - rewrite app_nil_r. reflexivity.
      - rewrite IHr, Hc, <- app_assoc, flat_map_app. reflexivity. }
    rewrite visit_node. destruct (is_list k); [apply A|].
    rewrite total_leave, A, total_enter. reflexivity.
  - unfold syn_comments. cbn. rewrite app_nil_r. apply total_token.
Qed.

Theorem attached_texts k cs rf :
  is_list k = false ->
  map pt_text (attached (Node k cs) rf) = syn_comments (Node k cs).
Proof.
  intros L. unfold attached, finish. set (root := Node k cs).
  pose proof (total_visit root rf root [] new_visitor) as T.
  unfold total in T at 2. cbn [new_visitor v_placed v_pending last_comments v_last map app] in T.
  rewrite <- T. unfold total.
  assert (P : v_pending (visit root rf [] root new_visitor) = []).
  { unfold root at 2. rewrite visit_node, L. reflexivity. }
  rewrite P, map_app, map_map. cbn [map app]. f_equal.
  erewrite map_ext; [|intros d; apply add_comment_text]. rewrite decorate_texts.
  unfold last_comments. destruct (v_last _); reflexivity.
Qed.

(** * Where comments go *)

Section Targets.
Variable root : syn.
Variable rf : bool.
Variables (k0 : kind) (cs0 : list syn).
Hypothesis root_eq : root = Node k0 cs0.
Hypothesis root_list : is_list k0 = false.

(** A node that is no list. *)
Definition good (p : path) : Prop :=
  exists k cs, at_path root p = Some (Node k cs) /\ is_list k = false.
Definition opt_good (p : option path) : Prop := match p with Some p => good p | None => True end.
Lemma good_root : good [].
Proof. exists k0, cs0. rewrite root_eq. split; [reflexivity|exact root_list]. Qed.
Hint Resolve good_root : core.

Lemma node_kind_good p k : node_kind root p = Some k -> is_list k = false -> good p.
Proof.
  unfold node_kind. destruct (at_path root p) as [[k' cs|]|] eqn:E; try discriminate.
  intros H L. injection H as ->. exists k, cs. split; assumption.
Qed.
Lemma is_kind_node k p : is_kind root k p = true -> node_kind root p = Some k.
Proof.
  unfold is_kind. destruct (node_kind root p); [|discriminate]. intros H. apply kind_eqb_eq in H.
  subst. reflexivity.
Qed.
Lemma is_kind_good k p : is_kind root k p = true -> is_list k = false -> good p.
Proof. intros H. apply node_kind_good, is_kind_node, H. Qed.
Lemma expression_not_list k : is_expression k = true -> is_list k = false.
Proof. destruct k; intros H; try discriminate H; reflexivity. Qed.
Lemma expression_field_good i p q : expression_field root i p = Some q -> good q.
Proof.
  unfold expression_field. destruct (node_kind root (i :: p)) eqn:E; [|discriminate].
  destruct (is_expression k) eqn:X; [|discriminate]. intros H. injection H as <-.
  eapply node_kind_good; [exact E|apply expression_not_list, X].
Qed.
Lemma field_of_kind_good k i p q :
  field_of_kind root k i p = Some q -> is_list k = false -> good q.
Proof.
  unfold field_of_kind. destruct (is_kind root k (i :: p)) eqn:E; [|discriminate].
  intros H. injection H as <-. apply is_kind_good, E.
Qed.

(** A node that is not the left operand of a binary node inside the root. *)
Definition starts (p : path) : Prop :=
  forall q, p = 0 :: q -> q <> [] -> is_kind root R_BINARY_EXPRESSION q = false.
Definition opt_starts (p : option path) : Prop := match p with Some p => starts p | None => True end.
(** A node other than an inner node of a chain of binary nodes. *)
Definition not_inner (p : path) : Prop :=
  is_kind root R_BINARY_EXPRESSION p = true -> starts p.
Lemma starts_not_inner p : starts p -> not_inner p.
Proof. intros H _. exact H. Qed.
Lemma is_kind_inner k p : is_kind root k p = true -> kind_eqb k R_BINARY_EXPRESSION = false -> not_inner p.
Proof.
  intros H N B. apply is_kind_node in H. apply is_kind_node in B. rewrite H in B.
  injection B as ->. rewrite kind_eqb_refl in N. discriminate N.
Qed.
Lemma starts_root : starts [].
Proof. intros q H. discriminate H. Qed.
Lemma starts_later i p : starts (S i :: p).
Proof. intros q H. discriminate H. Qed.
Lemma starts_child i p : is_kind root R_BINARY_EXPRESSION p = false -> starts (i :: p).
Proof. intros H q E _. injection E as _ <-. exact H. Qed.
Lemma starts_top i : starts [i].
Proof. intros q E N. injection E as _ <-. contradiction. Qed.
Lemma other_kind k k' p :
  is_kind root k p = true -> kind_eqb k k' = false -> is_kind root k' p = false.
Proof.
  intros H N. apply is_kind_node in H. unfold is_kind. rewrite H. exact N.
Qed.
Lemma expression_field_is i p q : expression_field root i p = Some q -> q = i :: p.
Proof.
  unfold expression_field. destruct (node_kind root (i :: p)); [|discriminate].
  destruct (is_expression k); [|discriminate]. intros H. injection H as <-. reflexivity.
Qed.
Lemma expression_field_starts i p q : expression_field root (S i) p = Some q -> starts q.
Proof. intros H. rewrite (expression_field_is _ _ _ H). apply starts_later. Qed.

(** What is chosen for a comment: a node that can have it; it dangles only in
    braces without an expression; it leads no inner node of a chain. *)
Definition chosen_well (c : how * path) : Prop :=
  good (snd c) /\
  (fst c = Dangling ->
   is_kind root R_BRACED_EXPRESSIONS (snd c) = true /\ first_expression root (snd c) = None) /\
  (fst c = Leading -> not_inner (snd c)).
Definition choice_well (c : choice) : Prop :=
  match c with Some x => chosen_well x | None => True end.

Lemma leading_well p : good p -> not_inner p -> chosen_well (Leading, p).
Proof. intros G N. split; [exact G|]. split; [discriminate|]. intros _. exact N. Qed.
Lemma trailing_well p : good p -> chosen_well (Trailing, p).
Proof. intros G. split; [exact G|]. split; discriminate. Qed.
Hint Resolve leading_well trailing_well expression_field_good expression_field_starts
  starts_not_inner : core.
Lemma leading_kind k p :
  is_kind root k p = true -> good p -> kind_eqb k R_BINARY_EXPRESSION = false ->
  chosen_well (Leading, p).
Proof. intros K G N. apply leading_well; [exact G|]. eapply is_kind_inner; eassumption. Qed.

Lemma place_body_well b : good b -> starts b -> chosen_well (place_body root b).
Proof.
  intros G St. unfold place_body. destruct (is_kind root R_BRACED_EXPRESSIONS b) eqn:E; auto.
  destruct (first_expression root b) eqn:F.
  - unfold first_expression in F.
    destruct (is_kind root R_EXPRESSION_LIST (1 :: b)) eqn:X; [|discriminate].
    apply leading_well; [eapply expression_field_good, F|].
    apply starts_not_inner. rewrite (expression_field_is _ _ _ F). apply starts_child.
    eapply other_kind; [exact X|reflexivity].
  - split; [exact G|]. split; [|discriminate]. intros _. split; assumption.
Qed.
Hint Resolve place_body_well : core.
Lemma place_alternative_well a : good a -> starts a -> choice_well (place_alternative root a).
Proof.
  intros G St. unfold place_alternative. destruct (is_kind root R_IF_STATEMENT a); [|cbn; auto].
  destruct (expression_field root 4 a) eqn:E; cbn; eauto.
Qed.

Lemma or_else_well a b : choice_well a -> choice_well b -> choice_well (or_else a b).
Proof. destruct a; auto. Qed.

Lemma whole_argument_kind p q : whole_argument root p = Some q -> is_kind root R_ARGUMENT q = true.
Proof.
  unfold whole_argument, argument_node. destruct p as [p|]; [|discriminate].
  destruct (is_kind root R_ARGUMENT p) eqn:E; [|discriminate]. cbn.
  destruct (negb _); [|discriminate]. intros H. injection H as <-. exact E.
Qed.
Lemma whole_argument_good p q : whole_argument root p = Some q -> good q.
Proof.
  unfold whole_argument, argument_node. destruct p as [p|]; [|discriminate].
  destruct (is_kind root R_ARGUMENT p) eqn:E; [|discriminate]. cbn.
  destruct (negb _); [|discriminate]. intros H. injection H as <-.
  eapply is_kind_good; [exact E|reflexivity].
Qed.

Ltac cases :=
  repeat match goal with
  | |- choice_well (if ?b then _ else _) => destruct b eqn:?
  | |- choice_well (match ?x with Some _ => _ | None => _ end) => destruct x eqn:?
  | |- choice_well None => exact I
  end; cbn [choice_well]; eauto.

Lemma place_comment_well d :
  good (d_enclosing d) -> opt_good (d_preceding d) -> choice_well (place_comment root d).
Proof.
  intros G P. unfold place_comment.
  repeat apply or_else_well.
  - unfold handle_for. cases; (eapply leading_kind; [eassumption|exact G|reflexivity]).
  - unfold handle_function. cases; (eapply leading_kind; [eassumption|exact G|reflexivity]).
  - unfold handle_while. cases; (eapply leading_kind; [eassumption|exact G|reflexivity]).
  - unfold handle_repeat. cases; (eapply leading_kind; [eassumption|exact G|reflexivity]).
  - unfold handle_if. cases. eapply place_alternative_well; eauto.
  - unfold handle_else. cases. eapply place_alternative_well; eauto.
  - unfold handle_paren. cases.
  - unfold handle_name_clause. cases. apply leading_well.
    + apply andb_true_iff in Heqb0 as [A _]. eapply node_kind_good; [eassumption|].
      destruct k; try discriminate A; reflexivity.
    + apply starts_not_inner, starts_child. eapply other_kind; [eassumption|reflexivity].
  - unfold handle_argument. cases. apply leading_well; [eapply field_of_kind_good; eauto|].
    unfold field_of_kind in *. destruct (is_kind root R_ARGUMENT_NAME_CLAUSE (0 :: d_enclosing d)) eqn:X;
      [|discriminate]. injection Heqo as <-. eapply is_kind_inner; [exact X|reflexivity].
  - unfold handle_hole. destruct (d_preceding d) as [h|]; [|exact I]. cbn in P.
    assert (Arg : forall p, is_kind root R_ARGUMENT p = true -> not_inner p)
      by (intros p X; eapply is_kind_inner; [exact X|reflexivity]).
    unfold argument_node. destruct (is_kind root R_ARGUMENT h) eqn:X; [|exact I]. cbn [andb].
    cases; eauto using whole_argument_good, whole_argument_kind.
Qed.

(** A comment dangles at the root, in empty braces, or in a node with tokens
    and no nodes; it leads no inner node of a chain. *)
Definition placed_well (q : placement) : Prop :=
  good (pt_path q) /\
  (pt_how q = Dangling ->
   pt_path q = [] \/
   (is_kind root R_BRACED_EXPRESSIONS (pt_path q) = true /\
    first_expression root (pt_path q) = None) \/
   exists k cs, at_path root (pt_path q) = Some (Node k cs) /\
                cs <> [] /\ existsb has_node cs = false) /\
  (pt_how q = Leading -> not_inner (pt_path q)).

Lemma add_comment_well d :
  good (d_enclosing d) -> opt_good (d_preceding d) -> opt_good (d_following d) ->
  opt_starts (d_following d) ->
  (d_preceding d = None -> d_following d = None ->
   d_enclosing d = [] \/
   exists k cs, at_path root (d_enclosing d) = Some (Node k cs) /\
                cs <> [] /\ existsb has_node cs = false) ->
  placed_well (add_comment root d).
Proof.
  intros G P F St D. pose proof (place_comment_well d G P) as W. unfold add_comment.
  destruct (place_comment root d) as [[h p]|]; cbn in *.
  - destruct W as [Gp [B L]]. split; [exact Gp|]. cbn. split; [|exact L].
    intros H. right; left. apply B, H.
  - clear W. unfold default_place.
    destruct (d_own d), (d_preceding d) as [a|], (d_following d) as [b|]; cbn in *;
      (split; [assumption|cbn; split; try discriminate]); auto; intros _;
      destruct (D eq_refl eq_refl) as [E|E]; auto.
Qed.

Record inv (v : visitor) : Prop := {
  inv_placed : Forall placed_well (v_placed v);
  inv_parents : Forall good (v_parents v);
  inv_preceding : opt_good (v_preceding v);
  inv_pending : Forall (fun d => good (d_enclosing d) /\ opt_good (d_preceding d)
                                 /\ d_enclosing d = last (v_parents v) []) (v_pending v);
  inv_flushed : v_following v <> None -> v_pending v = [];
  inv_index : forall i, v_following v = Some i -> i < List.length (v_parents v);
  inv_starts : forall i p, v_following v = Some i -> nth_error (v_parents v) i = Some p -> starts p
}.
(** Some node of the one that is open has been left. *)
Definition inside (v : visitor) : Prop :=
  v_following v = None /\ v_preceding v <> None /\
  Forall (fun d => d_preceding d <> None) (v_pending v).

Lemma last_good l : Forall good l -> good (last l []).
Proof.
  induction l as [|x l IH]; intros F; [exact good_root|]. inversion F. subst.
  cbn. destruct l; [assumption|auto].
Qed.
Lemma nth_good i l : Forall good l -> good (nth i l []).
Proof.
  intros F. revert i. induction F; intros [|i]; cbn; auto; exact good_root.
Qed.
Lemma enclosing_good v : Forall good (v_parents v) -> good (enclosing v).
Proof.
  intros F. unfold enclosing. destruct (v_following v) as [[|i]|];
    auto using good_root, nth_good, last_good.
Qed.

Lemma inv_new : inv new_visitor.
Proof. split; cbn; auto; discriminate. Qed.

(** A node may be entered: it starts after a token or a node, or it is no left
    operand, or the node that starts there has been entered. *)
Definition entered (p : path) (v : visitor) : Prop :=
  (p <> [] -> v_parents v <> []) /\
  (starts p \/ exists i, v_following v = Some (S i)).

Lemma inv_enter p v : good p -> entered p v -> inv v ->
  inv (enter root p v) /\ v_parents (enter root p v) = v_parents v ++ [p] /\
  v_pending (enter root p v) = [].
Proof.
  intros G [_ Ok] [Pl Pa Pr Pe Fl In Nth].
  assert (E : v_pending (enter root p v) = []).
  { unfold enter. destruct (v_following v) as [[|i]|] eqn:Ef; try reflexivity.
    apply Fl. discriminate. }
  assert (F : match v_following v with None | Some 0 => True | _ => False end -> Forall placed_well
    (v_placed v ++ map (fun d => add_comment root (with_following (Some p) d)) (v_pending v))).
  { intros Z. assert (Sp : starts p).
    { destruct Ok as [Sp|[i Ei]]; [exact Sp|]. rewrite Ei in Z. contradiction. }
    apply Forall_app. split; [exact Pl|]. apply Forall_map. eapply Forall_impl; [|exact Pe].
    intros d [A [B _]]. apply add_comment_well; cbn; auto. discriminate. }
  assert (A : v_parents (enter root p v) = v_parents v ++ [p]).
  { unfold enter. destruct (v_following v) as [[|i]|]; reflexivity. }
  split; [|split; assumption]. split.
  - unfold enter. destruct (v_following v) as [[|i]|]; try assumption; apply F, I.
  - rewrite A. apply Forall_app. auto.
  - unfold enter. destruct (v_following v) as [[|i]|]; assumption.
  - rewrite E. constructor.
  - intros _. exact E.
  - intros i. rewrite A, app_length. unfold enter. cbn [List.length].
    destruct (v_following v) as [[|j]|] eqn:Ef; cbn; intros H.
    + injection H as <-. lia.
    + rewrite <- Ef in In. specialize (In _ H). lia.
    + injection H as <-. lia.
  - intros i q. rewrite A. unfold enter.
    destruct (v_following v) as [[|j]|] eqn:Ef; cbn; intros H.
    + injection H as <-. rewrite nth_error_app2, Nat.sub_diag by lia. cbn. intros H. injection H as <-.
      destruct Ok as [Sp|[i Ei]]; [exact Sp|discriminate Ei].
    + rewrite Ef in H. specialize (In _ H). rewrite nth_error_app1 by exact In. apply Nth, H.
    + injection H as <-. rewrite nth_error_app2, Nat.sub_diag by lia. cbn. intros H. injection H as <-.
      destruct Ok as [Sp|[i Ei]]; [exact Sp|discriminate Ei].
Qed.
Lemma enter_following p v : v_parents v <> [] -> exists i, v_following (enter root p v) = Some (S i).
Proof.
  intros H. unfold enter. destruct (v_following v) as [[|j]|] eqn:Ef; cbn; try (exists j; exact Ef);
    destruct (v_parents v) as [|a l]; try contradiction; exists (List.length l); reflexivity.
Qed.

Lemma inv_token x v : inv v ->
  inv (visit_token root rf x v) /\
  v_parents (visit_token root rf x v) = v_parents v /\
  (inside v -> inside (visit_token root rf x v)).
Proof.
  intros [Pl Pa Pr Pe Fl In Nth]. unfold visit_token.
  set (gap := _ ++ p_leading x). set (own := match v_last v with Some _ => false | None => true end).
  set (cs := decorate _ _ _ _ _ _ _).
  assert (C : Forall (fun d => d_enclosing d = enclosing v /\ d_preceding d = v_preceding v) cs).
  { unfold cs. clearbody gap own. generalize 0 as n. generalize own as o. clear.
    induction gap as [|[[] y] r IH]; intros o n; cbn [decorate]; auto. }
  clearbody cs. clear gap own.
  pose proof (enclosing_good v Pa) as Ge.
  destruct (v_following v) as [i|] eqn:Ef.
  - split; [|split; [reflexivity|intros [H _]; rewrite Ef in H; discriminate H]].
    specialize (Fl ltac:(discriminate)). rewrite Fl. cbn [app].
    specialize (In i eq_refl).
    split; cbn; try assumption; try constructor; try discriminate; try tauto.
    apply Forall_app. split; [exact Pl|]. apply Forall_map. eapply Forall_impl; [|exact C].
    intros d [A B]. apply add_comment_well; cbn.
    + rewrite A. exact Ge.
    + rewrite B. exact Pr.
    + destruct i as [|i]; [destruct rf; cbn; auto|].
      destruct (nth_error (v_parents v) (S i)) eqn:N; cbn; [|exact I].
      eapply Forall_forall; [exact Pa|]. eapply nth_error_In, N.
    + destruct i as [|i]; [destruct rf; cbn; auto using starts_root|].
      destruct (nth_error (v_parents v) (S i)) eqn:N; cbn; [|exact I]. eapply Nth; [reflexivity|exact N].
    + intros _ N. left. rewrite A. unfold enclosing. rewrite Ef. destruct i as [|i]; [reflexivity|].
      apply nth_error_None in N. lia.
  - split; [|split; [reflexivity|]].
    + split; cbn; try assumption; try discriminate.
      * apply Forall_app. split; [exact Pe|]. eapply Forall_impl; [|exact C].
        intros d [A B]. rewrite A, B. split; [exact Ge|]. split; [exact Pr|].
        unfold enclosing. rewrite Ef. reflexivity.
      * contradiction.
    + intros [_ [P Q]]. split; [reflexivity|]. split; [exact P|]. cbn. apply Forall_app.
      split; [exact Q|]. eapply Forall_impl; [|exact C]. intros d [_ B]. rewrite B. exact P.
Qed.

Lemma inv_leave p k cs v :
  at_path root p = Some (Node k cs) -> is_list k = false -> inv v ->
  (v_pending v <> [] -> cs <> []) ->
  (existsb has_node cs = true -> inside v) ->
  forall ps, v_parents v = ps ++ [p] ->
  inv (leave root p v) /\ v_parents (leave root p v) = ps /\ inside (leave root p v).
Proof.
  intros At L [Pl Pa Pr Pe Fl In Nth] Ne Ins ps E.
  assert (G : good p) by (exists k, cs; auto).
  assert (A : v_parents (leave root p v) = ps).
  { unfold leave. cbn. rewrite E, removelast_last. reflexivity. }
  split; [|split; [exact A|]].
  - split.
    + unfold leave. cbn. apply Forall_app. split; [exact Pl|]. apply Forall_map.
      apply Forall_forall. intros d Hd.
      pose proof (proj1 (Forall_forall _ _) Pe d Hd) as [Ge [Gp Le]].
      apply add_comment_well; cbn; auto. intros N _. right.
      rewrite Le, E, last_last. exists k, cs. split; [exact At|].
      split; [apply Ne; intros X; rewrite X in Hd; destruct Hd|].
      destruct (existsb has_node cs); [|reflexivity].
      destruct (Ins eq_refl) as [_ [_ Q]]. pose proof (proj1 (Forall_forall _ _) Q d Hd). contradiction.
    + rewrite A. rewrite E in Pa. apply Forall_app in Pa. apply Pa.
    + exact G.
    + constructor.
    + reflexivity.
    + discriminate.
    + discriminate.
  - split; [reflexivity|]. split; [discriminate|constructor].
Qed.

Definition visit_ok (t : syn) : Prop := forall p v,
  at_path root p = Some t -> entered p v -> inv v ->
  inv (visit root rf p t v) /\ v_parents (visit root rf p t v) = v_parents v /\
  (inside v -> inside (visit root rf p t v)) /\
  (has_node t = true -> inside (visit root rf p t v)).

Lemma visit_all_ok p k all l i v :
  Forall visit_ok l -> at_path root p = Some (Node k all) ->
  (forall j c, nth_error l j = Some c -> nth_error all (i + j) = Some c) ->
  v_parents v <> [] ->
  (i = 0 -> p <> [] -> is_kind root R_BINARY_EXPRESSION p = true -> exists j, v_following v = Some (S j)) ->
  inv v ->
  inv (visit_all root rf p i l v) /\
  v_parents (visit_all root rf p i l v) = v_parents v /\
  (inside v -> inside (visit_all root rf p i l v)) /\
  (existsb has_node l = true -> inside (visit_all root rf p i l v)).
Proof.
  intros F At. revert i v. induction F as [|c r Hc _ IH]; intros i v N Pn Sn I.
  - cbn. repeat split; auto; try apply I; try discriminate; intros; apply H.
  - cbn [visit_all existsb].
    destruct (Hc (i :: p) v) as [I1 [P1 [K1 H1]]]; [| |exact I|].
    { cbn [at_path]. rewrite At. specialize (N 0 c eq_refl). rewrite Nat.add_0_r in N. exact N. }
    { split; [intros _; exact Pn|]. destruct i as [|i]; [|left; apply starts_later].
      destruct p as [|a p]; [left; apply starts_top|].
      destruct (is_kind root R_BINARY_EXPRESSION (a :: p)) eqn:B; [right; auto|left; apply starts_child, B].
      apply Sn; [reflexivity|discriminate|reflexivity]. }
    destruct (IH (S i) (visit root rf (i :: p) c v)) as [I2 [P2 [K2 H2]]]; [| | |exact I1|].
    { intros j d Hj. specialize (N (S j) d Hj). rewrite Nat.add_succ_comm. exact N. }
    { rewrite P1. exact Pn. }
    { discriminate. }
    split; [exact I2|]. split; [congruence|]. split; [auto|].
    intros H. apply orb_true_iff in H as [H|H]; auto.
Qed.

Lemma visit_holds t : visit_ok t.
Proof.
  induction t as [k cs IH|x] using syn_ind'; intros p v At En I.
  - rewrite visit_node. cbn [has_node].
    destruct (is_list k) eqn:L.
    + apply (visit_all_ok p k cs cs 0 v IH At); [auto| | |exact I].
      * apply (proj1 En). intros ->. rewrite root_eq in At. injection At as -> _.
        rewrite root_list in L. discriminate L.
      * intros _ _ B. apply is_kind_node in B. unfold node_kind in B. rewrite At in B.
        injection B as ->. discriminate L.
    + destruct (inv_enter p v) as [I1 [P1 E1]]; [exists k, cs; auto|exact En|exact I|].
      destruct (visit_all_ok p k cs cs 0 (enter root p v) IH At) as [I2 [P2 [K2 H2]]];
        [auto| | |exact I1|].
      { rewrite P1. destruct (v_parents v); discriminate. }
      { intros _ Np _. apply enter_following, (proj1 En), Np. }
      destruct (inv_leave p k cs _ At L I2) with (ps := v_parents v) as [I3 [P3 K3]].
      * intros N. destruct cs; [|discriminate]. cbn [visit_all] in N. contradiction.
      * exact H2.
      * congruence.
      * split; [exact I3|]. split; [exact P3|]. auto.
  - destruct (inv_token x v I) as [I1 [P1 K1]]. cbn [visit has_node].
    split; [exact I1|]. split; [exact P1|]. split; [exact K1|discriminate].
Qed.

Theorem attached_well : Forall placed_well (attached root rf).
Proof.
  unfold attached, finish.
  assert (En : entered [] new_visitor) by (split; [contradiction|left; apply starts_root]).
  destruct (visit_holds root [] new_visitor eq_refl En inv_new) as [[Pl Pa Pr Pe Fl In Nth] [_ [_ _]]].
  set (v := visit root rf [] root new_visitor) in *. clearbody v.
  apply Forall_app. split; [exact Pl|]. apply Forall_map.
  set (ps := match v_last v with Some _ => _ | None => _ end). clearbody ps.
  generalize 0 as n. generalize false as own.
  induction ps as [|[[] y] r IH]; intros own n; cbn [decorate]; auto.
  constructor; [|apply IH]. apply add_comment_well; cbn; auto.
Qed.
End Targets.
