(** Every laid out node has its own stretch in any layout of the file. *)
From Coq Require Import List Arith Bool NArith Lia.
From Verif Require Import Text SettingsModel SettingsProofs SyntaxKind DirectiveModel FmtTree IrModel
  TableModel FmtModel FmtSpec FmtPathSpec FmtProofs FmtRunProofs FmtListProofs FmtTidyProofs.
Import ListNotations.

(** * Documents inside a document, whichever variant is chosen *)

Section Inall.
Variable P : doc -> Prop.
Inductive inall : doc -> Prop :=
| IA_here d : P d -> inall d
| IA_left a b : inall a -> inall (DCat a b)
| IA_right a b : inall b -> inall (DCat a b)
| IA_indent d : inall d -> inall (DIndent d)
| IA_group e d : inall d -> inall (DGroup e d)
| IA_best a b : inall a -> inall b -> inall (DBest a b).

Lemma inall_lay d : inall d -> forall m os, lay m d os ->
  exists d' m' pre os' post, P d' /\ lay m' d' os' /\ os = pre ++ os' ++ post.
Proof.
  induction 1 as [d Hd|a b _ IH|a b _ IH|d _ IH|e d _ IH|a b _ IHa _ IHb]; intros m os L.
  - exists d, m, [], os, []. rewrite app_nil_r. auto.
  - destruct L as [x [y [A [B ->]]]].
    destruct (IH _ _ A) as [d' [m' [pre [os' [post [C [D ->]]]]]]].
    exists d', m', pre, os', (post ++ y). rewrite <- !app_assoc. auto.
  - destruct L as [x [y [A [B ->]]]].
    destruct (IH _ _ B) as [d' [m' [pre [os' [post [C [D ->]]]]]]].
    exists d', m', (x ++ pre), os', post. rewrite <- !app_assoc. auto.
  - exact (IH m os L).
  - destruct e; [exact (IH Expanded os L)|]. destruct L as [m' L]. exact (IH m' os L).
  - destruct L as [m' [L|L]]; [exact (IHa m' os L)|exact (IHb m' os L)].
Qed.
Lemma inall_cat d ds : In d ds -> inall d -> inall (cat ds).
Proof.
  induction ds as [|a ds IH]; intros I H; [destruct I|]. cbn [cat].
  destruct I as [->|I]; [apply IA_left, H|apply IA_right, IH; assumption].
Qed.
Lemma inall_remove d :
  (forall d, P d -> P (remove_soft d)) -> inall d -> inall (remove_soft d).
Proof.
  intros C. induction 1; cbn [remove_soft].
  - apply IA_here, C, H.
  - apply IA_left; assumption.
  - apply IA_right; assumption.
  - apply IA_indent; assumption.
  - apply IA_group; assumption.
  - apply IA_best; assumption.
Qed.
Lemma inall_loud d :
  (forall d, P d -> will_break (remove_soft d) = true) -> inall d ->
  will_break (remove_soft d) = true.
Proof.
  intros C. induction 1; cbn [remove_soft will_break].
  - apply C, H.
  - rewrite IHinall. reflexivity.
  - rewrite IHinall. apply orb_true_r.
  - exact IHinall.
  - rewrite IHinall. apply orb_true_r.
  - exact IHinall1.
Qed.
End Inall.

Lemma inall_trans (P Q : doc -> Prop) d :
  (forall d, P d -> inall Q d) -> inall P d -> inall Q d.
Proof.
  intros T. induction 1; [exact (T _ H)| | | | |].
  - apply IA_left; assumption.
  - apply IA_right; assumption.
  - apply IA_indent; assumption.
  - apply IA_group; assumption.
  - apply IA_best; assumption.
Qed.

(** Documents with a word in them. *)
Fixpoint solid (d : doc) : bool :=
  match d with
  | DWord _ | DPanic => true
  | DCat a b => solid a || solid b
  | DIndent d | DGroup _ d => solid d
  | DBest a b => solid a && solid b
  | _ => false
  end.
Lemma solid_not_nil d : solid d = true -> is_nil d = false.
Proof.
  induction d; cbn [solid is_nil]; try discriminate; try reflexivity.
  intros H. apply orb_true_iff in H. destruct H as [H|H].
  - rewrite (IHd1 H). reflexivity.
  - rewrite (IHd2 H). apply andb_false_r.
Qed.
Lemma solid_remove d : solid (remove_soft d) = solid d.
Proof.
  induction d; cbn [remove_soft solid]; try reflexivity; try congruence.
  destruct m; reflexivity.
Qed.
Lemma inall_solid (P : doc -> Prop) d :
  (forall d, P d -> solid d = true) -> inall P d -> solid d = true.
Proof.
  intros S. induction 1; cbn [solid]; auto.
  - rewrite IHinall. reflexivity.
  - rewrite IHinall. apply orb_true_r.
  - rewrite IHinall1, IHinall2. reflexivity.
Qed.

Section Paths.
Variable o : format_options.
Variable pc : doc -> option (list piece).

Lemma solid_cat d ds : In d ds -> solid d = true -> solid (cat ds) = true.
Proof.
  induction ds as [|a ds IH]; intros I H; [destruct I|]. cbn [cat solid].
  destruct I as [->|I]; [rewrite H; reflexivity|rewrite (IH I H); apply orb_true_r].
Qed.
Lemma solid_token t : solid (token_doc t) = true.
Proof. reflexivity. Qed.
Lemma solid_verbatim e : solid (verbatim e) = true.
Proof. apply (solid_cat (DWord (WVerb e))); [right; left; reflexivity|reflexivity]. Qed.
Lemma solid_node anc e f g : solid f = true -> solid (node_rule o anc e f g) = true.
Proof.
  intros H. unfold node_rule. destruct (suppressed o anc e); [apply solid_verbatim|].
  apply (solid_cat f); [right; left; reflexivity|exact H].
Qed.
Lemma solid_soft anc e f : solid f = true -> solid (node_rule_soft o anc e f) = true.
Proof. apply solid_node. Qed.
Lemma solid_block_indent d : solid d = true -> solid (block_indent d) = true.
Proof.
  intros H. unfold block_indent. rewrite (solid_not_nil d H). cbn [cat solid]. rewrite H.
  reflexivity.
Qed.
Ltac solid_in := repeat (first [left; reflexivity | right]).

Lemma solid_broken l r rc hs args e : solid l = true -> solid (all_broken_out l r rc hs args e) = true.
Proof.
  intros H. unfold all_broken_out. cbn [group solid]. apply (solid_cat l); [solid_in|exact H].
Qed.
Lemma solid_grouped l r rc hs args : solid l = true -> solid (write_grouped l r rc hs args) = true.
Proof.
  intros H. unfold write_grouped. destruct (last_opt args); [|apply solid_broken, H].
  cbv zeta. destruct (existsb _ _); [apply solid_broken, H|].
  match goal with |- context [if ?b then all_broken_out _ _ _ _ _ _ else _] => destruct b end;
    [apply solid_broken, H|].
  assert (V : forall w, solid (cat [ l; holes_doc hs; maybe_space (nonempty hs && nonempty args);
      join_grouped (length args =? 1) true w args; r ]) = true)
    by (intros w; apply (solid_cat l); [solid_in|exact H]).
  destruct (will_break (arg_doc p)).
  - cbn [solid]. rewrite V, solid_broken by exact H. reflexivity.
  - cbn [solid]. rewrite !V, solid_broken by exact H. reflexivity.
Qed.

(** Nodes other than arguments print something. *)
Lemma fmt_solid e : shaped e -> sort_of e <> SoArg -> forall anc fo, solid (fmt o pc anc fo e) = true.
Proof.
  induction e as [n k ts|n op a IHa|n l op r IHl IHr|n l op r IHl IHr|n l op r IHl IHr
    |n name ps b IHp IHb|n items IHi|n a d IHa IHd|n v IHv|n c t el IHc IHt IHe|n nl a IHa
    |n v s b IHv IHs IHb|n c b IHc IHb|n b IHb|n l IHl|n b IHb|n f args IHf IHa|n k rc items IHi
    |n nm v sl IHn IHv|n nm IHn] using expr_ind'; intros Sh So anc fo;
    [..|contradiction|]; cbn [fmt].
  - apply solid_soft. cbn [shaped] in Sh. destruct ts; [contradiction|]. reflexivity.
  - apply solid_soft. reflexivity.
  - apply solid_soft. destruct (classify (t_kind op)).
    + unfold rule_sticky. cbn [group solid]. apply (solid_cat (token_doc op)); [solid_in|reflexivity].
    + unfold rule_assignment. cbn [group solid].
      apply (solid_cat (token_doc (restyle o anc op))); [solid_in|reflexivity].
    + match goal with |- solid (let '(_, _) := ?s in _) = _ => destruct s as [dl tail] end.
      unfold rule_chain. cbn [group solid].
      assert (X : solid (cat (map chain_piece (tail ++ [ {| tp_op := op; tp_right := r;
                        tp_doc := fmt o pc (FBinary op :: anc) fo0 r; tp_enclosing := None |} ])))
                  = true).
      { eapply solid_cat; [apply in_map, in_or_app; right; left; reflexivity|].
        unfold chain_piece. cbn [tp_op tp_enclosing]. apply (solid_cat (token_doc op)); [solid_in|reflexivity]. }
      destruct (fo_left fo); [rewrite X; apply orb_true_r|].
      unfold indent. rewrite (solid_not_nil _ X). cbn [solid]. rewrite X. apply orb_true_r.
    + unfold rule_comparison. cbn [group solid].
      apply (solid_cat (token_doc op)); [solid_in|reflexivity].
    + reflexivity.
  - apply solid_soft. unfold rule_sticky. cbn [group solid].
    apply (solid_cat (token_doc op)); [solid_in|reflexivity].
  - apply solid_soft. unfold rule_sticky. cbn [group solid].
    apply (solid_cat (token_doc op)); [solid_in|reflexivity].
  - apply solid_soft. reflexivity.
  - apply solid_node. destruct items; reflexivity.
  - apply solid_soft. destruct Sh as [[S1 S2] S3].
    assert (X : solid (fmt o pc (FParam :: anc) fo0 a) = true)
      by (apply IHa; [exact S2|rewrite S1; discriminate]).
    destruct d as [d|]; cbn [rule_param cat solid]; rewrite X; reflexivity.
  - apply solid_soft. reflexivity.
  - apply solid_soft. reflexivity.
  - apply solid_soft. reflexivity.
  - apply solid_soft. reflexivity.
  - apply solid_soft. reflexivity.
  - apply solid_soft. reflexivity.
  - apply solid_node. destruct (variant_of anc n l); cbn [rule_braced]; try reflexivity.
    destruct (n_dang inner); [|reflexivity]. cbn [group solid].
    apply (solid_cat (token_doc tLCURLY)); [solid_in|reflexivity].
  - apply solid_soft. reflexivity.
  - apply solid_soft. cbn [solid]. destruct Sh as [[S1 S2] _]. rewrite IHf; [reflexivity|exact S2|].
    rewrite S1. discriminate.
  - change (solid (fmt o pc anc fo (EArgs n k rc items)) = true).
    rewrite fmt_args. apply solid_node. unfold rule_args.
    assert (X : forall infos, solid (rule_call_like o n k rc infos) = true).
    { intros infos. unfold rule_call_like. destruct infos as [|i0 infos0] eqn:E; [reflexivity|].
      rewrite <- E. clear E.
      match goal with |- solid (if ?b then _ else _) = _ => destruct b end; [reflexivity|].
      cbv zeta.
      match goal with |- solid (if ?b then _ else _) = _ => destruct b end; [apply solid_broken; reflexivity|].
      match goal with |- solid (if ?b then _ else _) = _ => destruct b end; [apply solid_broken; reflexivity|].
      match goal with |- solid (if ?b then _ else _) = _ => destruct b end;
        [apply solid_grouped; reflexivity|apply solid_broken; reflexivity]. }
    destruct k; try apply X. destruct (match fo_table fo with Some t => t | None => false end); try apply X.
    destruct (map _ _) as [|i0 infos0] eqn:E; [apply X|]. rewrite <- E.
    destruct (build_table _ _ _ _); [reflexivity|apply solid_verbatim].
  - apply solid_soft. unfold rule_name_clause.
    apply (solid_cat (token_doc tEQUAL)); [solid_in|reflexivity].
Qed.

(** * Documents of the parts *)

Definition quiet_grouped (anc : list frame) (fo : fopt) (x : expr) : Prop :=
  fo_grouped fo = true ->
  match x with
  | EFunction _ _ ps _ =>
    will_break (remove_soft (fmt o pc (FFunction false :: anc) fo0 ps)) = false
  | _ => True
  end.
(** The option for tables is passed down to round calls and their arguments. *)
Definition told (p : pos) (fo : fopt) (x : expr) : Prop :=
  match x with
  | ECall _ _ (EArgs _ KCall _ _) => fo_table fo = if q_table p then Some true else None
  | EArgs _ KCall _ _ => q_table p = true -> stored (o_table o) -> fo_table fo = Some true
  | _ => True
  end.
Definition suited (p : pos) (anc : list frame) (fo : fopt) (x : expr) : Prop :=
  quiet_grouped anc fo x /\ told p fo x.
Lemma told0 p fo x : q_table p = false -> fo_table fo = None -> told p fo x.
Proof.
  intros Q T. destruct x; try exact I.
  - destruct x2; try exact I. destruct k; try exact I. cbn [told]. rewrite Q. exact T.
  - destruct k; try exact I. cbn [told]. rewrite Q. discriminate.
Qed.
Definition lays (p : pos) (x : expr) (d : doc) : Prop :=
  exists anc fo, agree anc p /\ fits anc p fo x /\ suited p anc fo x /\
    d = fmt o pc anc fo x.
Definition muted (p : pos) (x : expr) (d : doc) : Prop :=
  exists d0, lays p x d0 /\ d = remove_soft d0 /\ will_break d = false.
Definition found (p : pos) (x : expr) (d : doc) : Prop := lays p x d \/ muted p x d.

Lemma lays0 anc p x :
  q_table p = false -> agree anc p -> sort_of x <> SoElse -> lays p x (fmt o pc anc fo0 x).
Proof.
  intros T A S. exists anc, fo0. split; [exact A|]. split; [apply fits0, S|].
  split; [|reflexivity]. split; [discriminate|]. apply told0; [exact T|reflexivity].
Qed.
Lemma found0 anc p x :
  q_table p = false -> agree anc p -> sort_of x <> SoElse -> inall (found p x) (fmt o pc anc fo0 x).
Proof. intros T A S. apply IA_here. left. apply lays0; assumption. Qed.
Lemma lays_solid p x d : shaped x -> (sort_of x = SoArg -> skip_asked o p x) -> lays p x d -> solid d = true.
Proof.
  intros Sh Sk [anc [fo [A [F [Q ->]]]]]. destruct (sort_of x) eqn:So;
    try (apply fmt_solid; [exact Sh|congruence]).
  specialize (Sk eq_refl). destruct x; try discriminate.
  cbn [fmt]. unfold node_rule_soft, node_rule.
  destruct Sk as [Sk|[? [? [? [E _]]]]]; [|discriminate].
  destruct A as [_ [Qd _]]. apply (has_directive_asked DSkip anc _ p Qd) in Sk.
  unfold suppressed. rewrite Sk. apply solid_verbatim.
Qed.
Lemma found_solid p x d : shaped x -> (sort_of x = SoArg -> skip_asked o p x) -> found p x d -> solid d = true.
Proof.
  intros Sh Sk [L|[d0 [L [-> _]]]]; [exact (lays_solid p x d Sh Sk L)|].
  rewrite solid_remove. exact (lays_solid p x d0 Sh Sk L).
Qed.

Section Target.
Variable P : doc -> Prop.
Hypothesis PS : forall d, P d -> solid d = true.

Lemma inall_node anc e f g : suppressed o anc e = false -> inall P f -> inall P (node_rule o anc e f g).
Proof.
  intros S H. unfold node_rule. rewrite S. apply (inall_cat P f); [right; left; reflexivity|exact H].
Qed.
Lemma inall_soft anc e f : suppressed o anc e = false -> inall P f -> inall P (node_rule_soft o anc e f).
Proof. apply inall_node. Qed.
Lemma inall_indent d : inall P d -> inall P (indent d).
Proof.
  intros H. unfold indent. rewrite (solid_not_nil _ (inall_solid P d PS H)). apply IA_indent, H.
Qed.
Lemma inall_between l d : inall P d ->
  inall P (if is_nil d then DNil else cat [DIndent (DCat (DLine l) d); DLine l]).
Proof.
  intros H. rewrite (solid_not_nil _ (inall_solid P d PS H)). apply IA_left, IA_indent, IA_right, H.
Qed.
Lemma inall_soft_block d : inall P d -> inall P (soft_block_indent d).
Proof. apply inall_between. Qed.
Lemma inall_block d : inall P d -> inall P (block_indent d).
Proof. apply inall_between. Qed.
Lemma inall_braces d : inall P d -> inall P (in_braces d).
Proof. intros H. apply IA_right, IA_left, inall_block, H. Qed.
Lemma inall_if_broken d : inall P d -> inall P (in_braces_if_broken d).
Proof. intros H. apply IA_right, IA_left, inall_soft_block, H. Qed.
Lemma inall_loop_body b d : inall P d -> inall P (loop_body b d).
Proof. intros H. unfold loop_body. destruct (is_braced b); [exact H|apply inall_braces, H]. Qed.
Lemma inall_function_body b d : inall P d -> inall P (function_body b d).
Proof.
  intros H. unfold function_body. destruct (is_braced b); [exact H|].
  destruct (n_newline (notes_of b)); [apply inall_braces, H|apply inall_if_broken, H].
Qed.
Lemma inall_if_body a f b d : inall P d -> inall P (if_body a f b d).
Proof.
  intros H. unfold if_body. destruct (is_braced b); [exact H|].
  destruct (is_if b && a); [exact H|]. destruct f; [apply inall_braces, H|apply inall_if_broken, H].
Qed.
Lemma inall_entries double : forall l first x d,
  In (x, d) l -> inall P d -> inall P (join_entries double first l).
Proof.
  induction l as [|[y e] l IH]; intros first x d I H; [destruct I|]. cbn [join_entries].
  destruct I as [E|I].
  - injection E as <- <-. apply IA_right, IA_left, H.
  - apply IA_right, IA_right, IA_left. exact (IH false x d I H).
Qed.
Lemma inall_params : forall l first x d,
  In (x, d) l -> inall P d -> inall P (join_params first l).
Proof.
  induction l as [|[y e] l IH]; intros first x d I H; [destruct I|]. cbn [join_params].
  destruct I as [E|I].
  - injection E as <- <-. apply IA_right, IA_left, H.
  - apply IA_right, IA_right, IA_right, IA_left. exact (IH false x d I H).
Qed.

(** Arguments. *)
Lemma inall_arg_doc a : inall P (ai_doc (fst a)) -> inall P (arg_doc a).
Proof. intros H. apply IA_left, H. Qed.
Lemma inall_broken_args : forall l first a,
  In a l -> inall P (ai_doc (fst a)) -> inall P (broken_args first l).
Proof.
  induction l as [|b l IH]; intros first a I H; [destruct I|]. cbn [broken_args].
  destruct I as [->|I].
  - apply IA_right, IA_left, inall_arg_doc, H.
  - apply IA_right, IA_right, IA_left. exact (IH false a I H).
Qed.
Lemma inall_broken_out l r rc hs args e a :
  In a args -> inall P (ai_doc (fst a)) -> inall P (all_broken_out l r rc hs args e).
Proof.
  intros I H. unfold all_broken_out. apply IA_group. pose proof (inall_broken_args args true a I H) as X.
  apply IA_right, IA_right, IA_right, IA_left.
  destruct (negb e && is_hugging args rc); [exact X|apply inall_soft_block, X].
Qed.
Lemma inall_join_grouped only wrap (W : forall d, inall P d -> inall P (wrap d)) :
  forall l first a, In a l -> inall P (ai_doc (fst a)) ->
  (last_opt l = Some a -> inall P (grouped_last only a)) ->
  inall P (join_grouped only first wrap l).
Proof.
  induction l as [|b l IH]; intros first a I H G; [destruct I|]. cbn [join_grouped].
  destruct I as [->|I].
  - apply IA_right, IA_left. destruct l as [|c l]; [apply W, G; reflexivity|apply inall_arg_doc, H].
  - apply IA_right, IA_right, IA_left. apply (IH false a I H).
    intros E. apply G. destruct l; [destruct I|]. rewrite last_opt_cons. exact E.
Qed.
Lemma inall_grouped l r rc hs args a :
  In a args -> inall P (ai_doc (fst a)) ->
  (last_opt args = Some a -> ai_poor (fst a) = false ->
   forall d, ai_function (fst a) = Some d -> inall P d) ->
  inall P (write_grouped l r rc hs args).
Proof.
  intros I H G. unfold write_grouped. pose proof (inall_broken_out l r rc hs args true a I H) as B.
  destruct (last_opt args) as [b|] eqn:EL; [|exact B]. cbv zeta.
  destruct (existsb _ _); [exact B|].
  destruct (negb (length args =? 1) && ai_poor (fst b)) eqn:EP; [exact B|].
  assert (V : forall w, (forall d, inall P d -> inall P (w d)) ->
    inall P (cat [ l; holes_doc hs; maybe_space (nonempty hs && nonempty args);
      join_grouped (length args =? 1) true w args; r ])).
  { intros w W. apply IA_right, IA_right, IA_right, IA_left.
    apply (inall_join_grouped _ w W args true a I H). rewrite EL. intros E. injection E as ->.
    unfold grouped_last. destruct (ai_function (fst a)) as [d|] eqn:EF; [|apply inall_arg_doc, H].
    destruct (length args =? 1); [apply inall_arg_doc, H|].
    apply IA_left. apply (G eq_refl); [exact EP|reflexivity]. }
  assert (W1 : forall d, inall P d -> inall P ((fun d => d) d)) by auto.
  assert (W2 : forall d, inall P d -> inall P (group true d)) by (intros d X; apply IA_group, X).
  destruct (will_break (arg_doc b)).
  - apply IA_right, IA_best; [apply V, W2|exact B].
  - apply IA_best; [apply V, W1|]. apply IA_best; [apply V, W2|exact B].
Qed.
Lemma in_drop_holes l a : In a l -> leading_hole a = false -> In a (drop_holes l).
Proof.
  intros I H. induction l as [|b l IH]; [destruct I|]. cbn [drop_holes].
  destruct (leading_hole b) eqn:E; [|exact I]. apply IH. destruct I as [->|I]; [congruence|exact I].
Qed.
Lemma drop_holes_last l a : last_opt (drop_holes l) = Some a -> last_opt l = Some a.
Proof.
  intros H. rewrite <- (holes_split l). rewrite last_opt_app_r; [exact H|].
  intros E. rewrite E in H. discriminate.
Qed.
Lemma in_with_seps' {A} (l : list A) x : In x l -> exists s, In (x, s) (with_seps l).
Proof.
  intros I. rewrite <- (with_seps_nodes l) in I. apply in_map_iff in I.
  destruct I as [[y s] [E I]]. cbn [fst] in E. subst y. exists s. exact I.
Qed.
Lemma inall_call_like n k rc infos i :
  In i infos -> (forall s, leading_hole (i, s) = false) -> inall P (ai_doc i) ->
  (last_opt infos = Some i -> group_last (map ai_node infos) = true -> ai_poor i = false ->
   forall d, ai_function i = Some d -> inall P d) ->
  inall P (rule_call_like o n k rc infos).
Proof.
  intros I Hh H G. unfold rule_call_like.
  destruct infos as [|i0 infos0] eqn:E; [destruct I|]. rewrite <- E in *. clear E i0 infos0.
  destruct (in_with_seps' _ _ I) as [s Is].
  match goal with |- inall P (if ?b then _ else _) => destruct b end.
  - apply IA_right, IA_left. revert Is. generalize (with_seps infos) true. clear G I.
    induction l as [|b l IH]; intros first I; [destruct I|]. destruct I as [->|I].
    + apply IA_right, IA_left, inall_arg_doc, H.
    + apply IA_right, IA_right, IA_left. apply IH, I.
  - cbv zeta. pose proof (in_drop_holes _ _ Is (Hh s)) as Id.
    assert (B : forall e, inall P (all_broken_out (token_doc (l_token k)) (token_doc (r_token k)) rc
        (take_holes (with_seps infos)) (drop_holes (with_seps infos)) e))
      by (intros e; exact (inall_broken_out _ _ _ _ _ e _ Id H)).
    match goal with |- inall P (if ?b then _ else _) => destruct b end; [apply B|].
    match goal with |- inall P (if ?b then _ else _) => destruct b end; [apply B|].
    match goal with |- inall P (if ?b then _ else _) => destruct b eqn:EG end; [|apply B].
    apply (inall_grouped _ _ _ _ _ _ Id H). cbn [fst]. intros L Po d D.
    apply drop_holes_last, last_opt_with_seps in L. cbn [fst] in L. exact (G L eq_refl Po d D).
Qed.

Lemma inall_spine : forall l anc dl tail p,
  spine o pc anc l = (dl, tail) -> agree anc p -> q_table p = false ->
  forall p' x, left_part p l p' x -> sort_of l = SoExpr -> shaped l ->
  (q_table p' = false -> forall anc', agree anc' p' -> sort_of x <> SoElse ->
   inall P (fmt o pc anc' fo0 x)) ->
  inall P dl \/ exists t, In t tail /\ inall P (tp_doc t).
Proof.
  assert (CC : forall op, is_chain_op op = chain_op (t_kind op)).
  { intros op. unfold is_chain_op, chain_op. destruct (t_kind op); reflexivity. }
  assert (Stop : forall l anc dl tail p p' x, ~ chain_node l ->
    (dl, tail) = (fmt o pc anc fo0 l, []) -> agree anc p -> q_table p = false ->
    left_part p l p' x -> sort_of l = SoExpr ->
    (q_table p' = false -> forall anc', agree anc' p' -> sort_of x <> SoElse ->
     inall P (fmt o pc anc' fo0 x)) ->
    inall P dl \/ exists t : tail_piece, In t tail /\ inall P (tp_doc t)).
  { intros l anc dl tail p p' x N E A QT L So F. injection E as -> ->. left.
    inversion L; subst.
    - apply F; [exact QT|exact A|congruence].
    - exfalso. apply N. repeat eexists. assumption.
    - exfalso. apply N. repeat eexists. assumption. }
  induction l as [| | n l op r IHl IHr| | | | | | | | | | | | | | | | |] using expr_ind';
    intros anc dl tail p Sp A QT p' x L So Sh F;
    try (refine (Stop _ anc dl tail p p' x _ (eq_sym Sp) A QT L So F);
         intros [? [? [? [? [E _]]]]]; discriminate).
  cbn [spine] in Sp. destruct (is_chain_op op) eqn:EC.
  - destruct (spine o pc (FBinary op :: anc) l) as [dl' tail'] eqn:ES. injection Sp as <- <-.
    destruct Sh as [[Sl Shl] [Sr Shr]].
    inversion L; subst.
    + exfalso. apply H. exists n, l, op, r. split; [reflexivity|]. rewrite <- CC. exact EC.
    + right. eexists. split; [apply in_or_app; right; left; reflexivity|]. cbn [tp_doc].
      apply F; [reflexivity|apply agree_operand, A|congruence].
    + destruct (IHl (FBinary op :: anc) dl' tail' (p_operand (q_eq p) op false) ES
                  (agree_operand _ _ _ _ A) eq_refl p' x H7 Sl Shl F) as [X|[t [It Xt]]].
      * left. exact X.
      * right. exists t. split; [apply in_or_app; left; exact It|exact Xt].
  - refine (Stop _ anc dl tail p p' x _ (eq_sym Sp) A QT L So F).
    intros [n' [l' [op' [r' [E C]]]]]. injection E as -> -> -> ->. rewrite CC in EC. congruence.
Qed.
End Target.

(** The parts of a well-formed node are well-formed. *)
Lemma left_part_shaped p l p' x :
  left_part p l p' x -> sort_of l = SoExpr -> shaped l -> sort_of x = SoExpr /\ shaped x.
Proof.
  induction 1; intros S Sh; [auto| |].
  - exact (proj2 Sh).
  - destruct Sh as [[A B] _]. auto.
Qed.
Lemma part_shaped p e p' x :
  part o p e p' x -> shaped e -> shaped x /\ (sort_of x = SoArg -> skip_asked o p' x).
Proof.
  intros H Sh.
  assert (X : forall s y, s <> SoArg -> sort_of y = s /\ shaped y ->
    shaped y /\ (sort_of y = SoArg -> skip_asked o p' y)).
  { intros s y N [A B]. split; [exact B|]. intros C. congruence. }
  destruct H; cbn [shaped opt_all] in Sh;
    repeat match goal with H : _ /\ _ |- _ => destruct H end;
    try (eapply X; [|split; eassumption]; discriminate).
  - destruct (left_part_shaped _ _ _ _ H0 H1 H4) as [A B].
    apply (X SoExpr); [discriminate|auto].
  - eapply X; [|exact (all_of_In _ _ _ Sh H)]. discriminate.
  - eapply X; [|exact (all_of_In _ _ _ Sh (in_elt x a b))]. discriminate.
  - split; [exact (proj2 (all_of_In _ _ _ Sh H0))|auto].
  - pose proof (proj2 (all_of_In _ _ _ Sh H0)) as [A _]. cbn [opt_all] in A.
    eapply X; [|exact A]. discriminate.
  - pose proof (proj2 (all_of_In _ _ _ Sh H0)) as [_ A]. cbn [opt_all] in A.
    eapply X; [|exact A]. discriminate.
Qed.

Lemma operator_class k : operator k = true -> classify k <> NoOperator.
Proof. destruct k; cbn; intros H; try discriminate. Qed.
Lemma chain_op_class k : chain_op k = true <-> classify k = Chain.
Proof. destruct k; cbn; split; intros H; try discriminate; reflexivity. Qed.

Lemma braced_docs anc : forall l a x b, l = a ++ x :: b ->
  In (x, fmt o pc (FBracedList (is_last b) :: anc) fo0 x)
    ((fix go (l : list expr) : list (expr * doc) :=
         match l with
         | [] => []
         | x :: r => (x, fmt o pc (FBracedList (is_last r) :: anc) fo0 x) :: go r
         end) l).
Proof.
  induction l as [|y l IH]; intros a x b E; [destruct a; discriminate|].
  destruct a as [|z a]; injection E as -> ->; [left; reflexivity|right]. exact (IH a x b eq_refl).
Qed.

Lemma not_asked_suppressed anc p e :
  agree anc p -> (forall n f args, e <> ECall n f args) -> ~ asked DSkip p (notes_of e) ->
  suppressed o anc e = false.
Proof.
  intros [_ [Qd _]] N A. unfold suppressed.
  destruct (has_directive DSkip anc (notes_of e)) eqn:E.
  - exfalso. apply A, (has_directive_asked DSkip anc _ p Qd), E.
  - destruct e; try reflexivity. exfalso. exact (N _ _ _ eq_refl).
Qed.

Lemma assignment_classify k : assignment_op k = true -> classify k = Assignment.
Proof. destruct k; cbn; intros H; try discriminate; reflexivity. Qed.
Lemma listed_setting names f : stored names -> listed names f -> in_setting names f = true.
Proof.
  intros [l N] [l' [name [El [Ca In]]]]. unfold in_setting. rewrite El.
  rewrite (proj2 (called_name_calls f name) Ca).
  rewrite N in El. destruct l as [l|]; [|discriminate]. injection El as <-.
  apply contains_sorted; [apply sort_texts_sorted|exact In].
Qed.

Ltac deep := repeat first [apply IA_left; assumption | apply IA_right].

Lemma part_found p e p' x :
  part o p e p' x -> shaped e -> forall anc fo, agree anc p -> fits anc p fo e ->
  suited p anc fo e -> suppressed o anc e = false ->
  inall (found p' x) (fmt o pc anc fo e).
Proof.
  intros H Sh anc fo A F [Q Tl] S.
  destruct (part_shaped p e p' x H Sh) as [Shx Skx].
  assert (PS : forall d, found p' x d -> solid d = true) by (intros d; apply found_solid; assumption).
  assert (FF : q_table p' = false -> forall anc', agree anc' p' -> sort_of x <> SoElse ->
    inall (found p' x) (fmt o pc anc' fo0 x)) by (intros; apply found0; assumption).
  destruct H; cbn [fmt]; cbn [shaped opt_all] in Sh;
    repeat match goal with H : _ /\ _ |- _ => destruct H end;
    try specialize (FF eq_refl).
  - (* unary *)
    apply inall_soft; [exact S|]. apply IA_right, IA_right, IA_left.
    match goal with |- inall _ (if ?b then _ else _) => destruct b end;
      [apply inall_soft_block; [exact PS|]|]; apply FF; congruence || apply agree_unary.
  - (* left *)
    apply inall_soft; [exact S|].
    assert (X : inall (found (p_operand (q_eq p) op false) l) (fmt o pc (FBinary op :: anc) fo0 l))
      by (apply FF; [apply agree_operand; assumption|congruence]).
    pose proof (operator_class _ H) as N. destruct (classify (t_kind op)) eqn:E; [| | | |contradiction].
    + apply IA_group, IA_left, X.
    + apply IA_group, IA_left, X.
    + apply chain_op_class in E. congruence.
    + apply IA_group, IA_left, X.
  - (* chain *)
    change (inall (found p' x) (fmt o pc anc fo (EBinary n l op r))).
    rewrite fmt_chain by (apply chain_op_class; assumption).
    apply inall_soft; [exact S|].
    destruct (spine o pc (FBinary op :: anc) l) as [dl tail] eqn:ES.
    assert (A0 : agree anc p) by exact A.
    destruct (inall_spine (found p' x) l (FBinary op :: anc) dl tail
                (p_operand (q_eq p) op false) ES (agree_operand _ _ _ _ A) eq_refl p' x) as [X|[t [It Xt]]];
      try assumption.
    + apply IA_group, IA_left, X.
    + apply IA_group, IA_right.
      match goal with |- inall _ (if _ then ?c else _) => assert (X : inall (found p' x) c) end.
      { eapply inall_cat; [apply in_map, in_or_app; left; exact It|]. unfold chain_piece.
        apply (inall_cat _ (tp_doc t)); [solid_in|exact Xt]. }
      destruct (fo_left fo); [exact X|apply inall_indent; [exact PS|exact X]].
  - (* right *)
    pose proof (operator_class _ H) as N. apply inall_soft; [exact S|].
    assert (X : table = false ->
              inall (found (p_operand (q_eq p) op table) r) (fmt o pc (FBinary op :: anc) fo0 r))
      by (intros ->; apply FF; [reflexivity|apply agree_operand; assumption|congruence]).
    assert (NT : classify (t_kind op) <> Assignment -> table = false).
    { intros C. destruct table; [|reflexivity]. exfalso. apply C.
      apply assignment_classify, (proj1 H0), eq_refl. }
    destruct (classify (t_kind op)) eqn:E; [| | | |contradiction].
    + specialize (X (NT ltac:(discriminate))). apply IA_group, IA_right, IA_right, IA_left, X.
    + apply IA_group, IA_right, IA_right, IA_right, IA_left.
      assert (Y : inall (found (p_operand (q_eq p) op table) r)
                    (fmt o pc (FBinary op :: anc) (rhs_options o anc n op r) r)).
      { apply IA_here. left.
        refine (ex_intro _ _ (ex_intro _ _ (conj _ (conj _ (conj _ eq_refl)))));
          [apply agree_operand; assumption| |].
        - unfold rhs_options. cbv zeta.
          destruct (persistent_assignment o op r && is_binary r).
          + apply fits_table; [congruence|reflexivity|discriminate].
          + destruct r; try (apply fits0; congruence).
            destruct (has_directive DTable anc n && is_call_args r2) eqn:ET;
              [|apply fits0; congruence].
            apply andb_true_iff in ET. destruct ET as [ET _].
            apply fits_table; [congruence|reflexivity|]. intros _. cbn [p_operand mkpos q_table].
            apply H0. split; [apply classify_assignment, E|].
            destruct A as [_ [Qd _]]. apply (has_directive_asked DTable anc n p Qd), ET.
        - unfold rhs_options. cbv zeta. split.
          + destruct (persistent_assignment o op r && is_binary r); [discriminate|].
            destruct r; try discriminate. destruct (_ && _); discriminate.
          + destruct r; try exact I; [|discriminate].
            destruct r2; try exact I. destruct k; try exact I.
            cbn [is_binary told is_call_args p_operand mkpos q_table]. rewrite !andb_false_r, andb_true_r.
            destruct table.
            * destruct (proj1 H0 eq_refl) as [_ Ask]. destruct A as [_ [Qd _]].
              rewrite (proj2 (has_directive_asked DTable anc n p Qd) Ask). reflexivity.
            * destruct (has_directive DTable anc n) eqn:ED; [|reflexivity].
              assert (false = true); [|discriminate]. apply H0.
              split; [apply classify_assignment, E|]. destruct A as [_ [Qd _]].
              apply (has_directive_asked DTable anc n p Qd), ED. }
      destruct (persistent_assignment o op r); [apply inall_indent; [exact PS|]|]; apply IA_right, Y.
    + specialize (X (NT ltac:(discriminate))).
      change (inall (found (p_operand (q_eq p) op table) r)
               (let '(dl, tail) := spine o pc (FBinary op :: anc) l in
                rule_chain o (fo_left fo) dl
                  (tail ++ [ {| tp_op := op; tp_right := r;
                     tp_doc := fmt o pc (FBinary op :: anc) fo0 r; tp_enclosing := None |} ]))).
      destruct (spine o pc (FBinary op :: anc) l) as [dl tail].
      apply IA_group, IA_right.
      match goal with |- inall ?P (if _ then ?c else _) => assert (Y : inall P c) end.
      { eapply inall_cat; [apply in_map, in_or_app; right; left; reflexivity|]. unfold chain_piece.
        eapply inall_cat; [|exact X]. solid_in. }
      destruct (fo_left fo); [exact Y|apply inall_indent; [exact PS|exact Y]].
    + specialize (X (NT ltac:(discriminate))).
      apply IA_group, IA_right, IA_right, IA_right, IA_left, inall_indent; [exact PS|].
      apply IA_right, X.
  - (* extract *)
    apply inall_soft; [exact S|]. apply IA_group, IA_left, FF; [apply agree_plain; reflexivity|congruence].
  - apply inall_soft; [exact S|]. apply IA_group, IA_right, IA_right, IA_left, FF;
      [apply agree_plain; reflexivity|congruence].
  - (* namespace *)
    apply inall_soft; [exact S|]. apply IA_group, IA_left, FF; [apply agree_plain; reflexivity|congruence].
  - apply inall_soft; [exact S|]. apply IA_group, IA_right, IA_right, IA_left, FF;
      [apply agree_plain; reflexivity|congruence].
  - (* params *)
    apply inall_soft; [exact S|]. apply IA_group, IA_right, IA_left.
    assert (L : lays p_plain ps (fmt o pc (FFunction false :: anc) fo0 ps))
      by (apply lays0; [reflexivity|apply agree_plain; reflexivity|congruence]).
    destruct (fo_grouped fo) eqn:EG; apply IA_here; [right|left; exact L].
    eexists. split; [exact L|]. split; [reflexivity|]. exact (Q EG).
  - apply inall_soft; [exact S|]. apply IA_group, IA_right, IA_right, IA_right, IA_left.
    apply inall_function_body; [exact PS|]. apply FF; [apply agree_body; reflexivity|congruence].
  - (* param *)
    apply inall_node; [exact S|]. unfold rule_params.
    destruct l as [|x0 l0]; [destruct H|]. cbn [map].
    apply IA_group, IA_right, IA_left, inall_soft_block; [exact PS|].
    apply (inall_params _ (map (fun x1 => (x1, fmt o pc (FParamList :: anc) fo0 x1)) (x0 :: l0))
             true x (fmt o pc (FParamList :: anc) fo0 x));
      [exact (in_map (fun x1 => (x1, fmt o pc (FParamList :: anc) fo0 x1)) _ _ H)|].
    apply FF; [apply agree_plain; reflexivity|]. rewrite (proj1 (all_of_In _ _ _ Sh H)). discriminate.
  - apply inall_soft; [exact S|].
    assert (X : inall (found p_plain a) (fmt o pc (FParam :: anc) fo0 a))
      by (apply FF; [apply agree_plain; reflexivity|congruence]).
    destruct d; [apply IA_left, X|exact X].
  - apply inall_soft; [exact S|]. apply IA_right, IA_right, IA_left.
    apply FF; [apply agree_plain; reflexivity|congruence].
  - apply inall_soft; [exact S|]. apply IA_right, IA_right, IA_left.
    apply FF; [apply agree_plain; reflexivity|congruence].
  - (* if *)
    apply inall_soft; [exact S|]. apply IA_group. apply IA_right, IA_right, IA_right, IA_left, IA_group.
    apply inall_soft_block; [exact PS|]. apply FF; [apply agree_plain; reflexivity|congruence].
  - apply inall_soft; [exact S|]. apply IA_group. do 6 apply IA_right. apply IA_left.
    apply inall_if_body; [exact PS|]. apply FF; [apply agree_body; reflexivity|congruence].
  - apply inall_soft; [exact S|]. apply IA_group. do 7 apply IA_right. apply IA_left, IA_right.
    apply IA_here. left.
    refine (ex_intro _ _ (ex_intro _ _ (conj _ (conj _ (conj _ eq_refl)))));
      [apply (agree_plain (FIf SElse)); reflexivity| |split; [discriminate|apply told0; reflexivity]].
    split; [discriminate|]. destruct el; try discriminate. split; [reflexivity|].
    eexists. split; [reflexivity|]. intros Ei.
    destruct F as [_ [F|[F _]]]; rewrite F; [|reflexivity].
    apply compute_force. right. right. right. right. eexists _, _, _. split; [reflexivity|].
    auto.
  - apply inall_soft; [exact S|]. unfold rule_else. apply IA_right, IA_right, IA_left.
    apply inall_if_body; [exact PS|].
    destruct F as [_ [Dr [b [Fb Fi]]]]. rewrite Fb.
    destruct (is_if a) eqn:Ei; [|apply FF; [apply agree_body; reflexivity|congruence]].
    specialize (Fi eq_refl). subst b. apply IA_here. left.
    refine (ex_intro _ _ (ex_intro _ _ (conj _ (conj _ (conj _ eq_refl)))));
      [apply (agree_body FElse); reflexivity| |split; [discriminate|apply told0; reflexivity]].
    split; [discriminate|]. destruct a; try discriminate. right. split; reflexivity.
  - (* for *)
    apply inall_soft; [exact S|]. apply IA_group. do 3 apply IA_right. apply IA_left.
    apply FF; [apply agree_plain; reflexivity|congruence].
  - apply inall_soft; [exact S|]. apply IA_group. do 7 apply IA_right. apply IA_left.
    apply FF; [apply agree_plain; reflexivity|congruence].
  - apply inall_soft; [exact S|]. apply IA_group. do 10 apply IA_right. apply IA_left.
    apply inall_loop_body; [exact PS|]. apply FF; [apply agree_body; reflexivity|congruence].
  - apply inall_soft; [exact S|]. apply IA_group. do 3 apply IA_right. apply IA_left, IA_group.
    apply inall_soft_block; [exact PS|]. apply FF; [apply agree_plain; reflexivity|congruence].
  - apply inall_soft; [exact S|]. apply IA_group. do 6 apply IA_right. apply IA_left.
    apply inall_loop_body; [exact PS|]. apply FF; [apply agree_body; reflexivity|congruence].
  - apply inall_soft; [exact S|]. apply IA_group. do 2 apply IA_right. apply IA_left.
    apply inall_loop_body; [exact PS|]. apply FF; [apply agree_body; reflexivity|congruence].
  - (* statements *)
    apply inall_node; [exact S|].
    assert (V : variant_of anc n (a ++ x :: b) = BNotEmpty).
    { unfold variant_of. destruct (a ++ x :: b) as [|y l] eqn:EL; [destruct a; discriminate|].
      destruct l; [|destruct y; try reflexivity; destruct es as [|z [|]]; try reflexivity;
        destruct z; reflexivity].
      destruct y; try reflexivity. destruct es as [|z [|]]; try reflexivity;
        destruct z; try reflexivity.
      exfalso. apply H. repeat eexists. }
    rewrite V. apply inall_braces; [exact PS|]. unfold rule_expression_list.
    eapply inall_entries; [apply (braced_docs anc _ a x b eq_refl)|].
    apply FF; [destruct b; repeat split|]. rewrite (proj1 (all_of_In _ _ _ Sh (in_elt x a b))). discriminate.
  - apply inall_soft; [exact S|]. apply IA_right, IA_left.
    assert (X : inall (found p_body b) (fmt o pc (FParen :: anc) fo0 b))
      by (apply FF; [apply agree_body; reflexivity|congruence]).
    destruct (n_direct (notes_of b)); [apply inall_block; [exact PS|exact X]|exact X].
  - (* call *)
    apply inall_soft; [exact S|]. apply IA_left. apply FF; [apply agree_plain; reflexivity|congruence].
  - apply inall_soft; [exact S|]. apply IA_right, IA_here. left. eexists _, _.
    split; [|split; [|split; [|reflexivity]]].
    + repeat split.
    + apply fits_table; [congruence|reflexivity|]. unfold call_options. cbn [fo_table fo_with_table].
      intros T. injection T as T. apply andb_true_iff in T. destruct T as [_ T].
      apply H. unfold table_asked. destruct F as [Ft _].
      destruct (fo_table fo) as [[]|]; [left; apply Ft; reflexivity|discriminate|].
      apply orb_true_iff in T. destruct T as [T|T].
      * right. left. destruct A as [_ [Qd _]]. apply (has_directive_asked DTable anc n p Qd), T.
      * right. right. apply in_setting_listed, T.
    + split; [discriminate|]. destruct args; try exact I; [discriminate|]. destruct k; try exact I.
      cbn [told]. intros QT St. cbn [told] in Tl. cbn [mkpos q_table] in QT. subst table.
      unfold call_options. cbn [is_call_args andb fo_table fo_with_table]. f_equal.
      rewrite Tl. destruct (q_table p) eqn:Qp; [reflexivity|].
      destruct (proj1 H eq_refl) as [Ask|[Ask|Ask]]; [congruence| |].
      * destruct A as [_ [Qd _]]. rewrite (proj2 (has_directive_asked DTable anc n p Qd) Ask). reflexivity.
      * rewrite (listed_setting _ _ St Ask). apply orb_true_r.
  - (* arguments *)
    change (inall (found p_item x) (fmt o pc anc fo (EArgs n k rc l))). rewrite fmt_args.
    apply inall_node; [exact S|].
    assert (G : inall (found p_item x) (rule_call_like o n k rc (map (arg_info o pc anc) l))).
    { pose proof (proj1 (all_of_In _ _ _ Sh H0)) as So. destruct x; try discriminate.
      destruct H1 as [[_ [c [Ic _]]]|[? [? [? [E _]]]]]; [|discriminate]. cbn [notes_of] in Ic.
      assert (HC : has_comments n0 = true).
      { unfold has_comments. destruct (n_lead n0); [destruct Ic|reflexivity]. }
      apply (inall_call_like _ PS n k rc _ (arg_info o pc anc (EArg n0 nm v sl))).
      - apply in_map, H0.
      - intros s. unfold leading_hole. cbn [fst arg_info ai_node notes_of]. rewrite HC. apply andb_false_r.
      - cbn [arg_info ai_doc]. apply FF; [|discriminate]. repeat split.
      - intros L GL. exfalso. rewrite map_map in GL.
        unfold group_last in GL. rewrite (last_opt_map (fun x => ai_node (arg_info o pc anc x))) in GL.
        rewrite (last_opt_map (arg_info o pc anc)) in L.
        destruct (last_opt l) as [y|]; [|discriminate]. cbn [opt_map] in L, GL.
        assert (E : ai_node (arg_info o pc anc y) = EArg n0 nm v sl)
          by (injection L as L; rewrite L; reflexivity).
        rewrite E in GL. rewrite HC in GL. discriminate. }
    unfold rule_args. destruct k; try exact G.
    destruct F as [F _]. destruct (fo_table fo) as [[]|]; try exact G.
    exfalso. exact (H (F eq_refl) eq_refl).
  - (* argument names *)
    change (inall (found p_plain c) (fmt o pc anc fo (EArgs n k rc l))). rewrite fmt_args.
    apply inall_node; [exact S|].
    pose proof (proj2 (all_of_In _ _ _ Sh H0)) as [[Sc _] _].
    assert (X : inall (found p_plain c) (fmt o pc (FArg :: FArgList :: anc) fo0 c))
      by (apply FF; [apply agree_plain; reflexivity|congruence]).
    assert (G : inall (found p_plain c) (rule_call_like o n k rc (map (arg_info o pc anc) l))).
    { apply (inall_call_like _ PS n k rc _ (arg_info o pc anc (EArg n' (Some c) v sl))).
      - apply in_map, H0.
      - reflexivity.
      - cbn [arg_info ai_doc fmt]. apply inall_soft.
        + apply (not_asked_suppressed _ p_item); [repeat split|discriminate|assumption].
        + destruct v; apply IA_left, X.
      - intros _ _ _ d D. cbn [arg_info ai_function] in D. destruct v as [v|]; [|discriminate].
        destruct v; try discriminate. injection D as <-. apply IA_left, IA_left, X. }
    unfold rule_args. destruct k; try exact G.
    destruct F as [F _]. destruct (fo_table fo) as [[]|]; try exact G.
    exfalso. exact (H (F eq_refl) eq_refl).
  - change (inall (found p_plain v) (fmt o pc anc fo (EArgs n k rc l))). rewrite fmt_args.
    apply inall_node; [exact S|].
    pose proof (proj2 (all_of_In _ _ _ Sh H0)) as [_ [Sv _]].
    assert (X : inall (found p_plain v) (fmt o pc (FArg :: FArgList :: anc) fo0 v))
      by (apply FF; [apply agree_plain; reflexivity|congruence]).
    assert (G : inall (found p_plain v) (rule_call_like o n k rc (map (arg_info o pc anc) l))).
    { apply (inall_call_like _ PS n k rc _ (arg_info o pc anc (EArg n' nm (Some v) sl))).
      - apply in_map, H0.
      - intros s. unfold leading_hole. cbn [fst arg_info ai_node is_hole]. destruct nm; reflexivity.
      - cbn [arg_info ai_doc fmt]. apply inall_soft.
        + apply (not_asked_suppressed _ p_item); [repeat split|discriminate|assumption].
        + destruct nm; [apply IA_right, IA_right, IA_left, X|exact X].
      - intros _ _ Po d D. cbn [arg_info ai_function] in D.
        destruct v; try discriminate. injection D as <-. apply IA_right, IA_left, IA_here.
        left. exists (FArg :: FArgList :: anc), fo_with_grouped.
        split; [apply agree_plain; reflexivity|]. split; [|split; [|reflexivity]].
        + apply fits_table; [discriminate|reflexivity|discriminate].
        + split; [intros _; exact Po|exact I]. }
    unfold rule_args. destruct k; try exact G.
    destruct F as [F _]. destruct (fo_table fo) as [[]|]; try exact G.
    exfalso. exact (H (F eq_refl) eq_refl).
  - apply inall_soft; [exact S|]. apply IA_left, FF; [apply agree_plain; reflexivity|congruence].
Qed.

(** * Visited nodes *)

Lemma remove_soft_idem d : remove_soft (remove_soft d) = remove_soft d.
Proof.
  induction d; cbn [remove_soft]; try reflexivity; try congruence. destruct m; reflexivity.
Qed.

Lemma visited_shaped p e p' y :
  visited o p e p' y -> shaped e -> (sort_of e = SoArg -> skip_asked o p e) ->
  shaped y /\ (sort_of y = SoArg -> skip_asked o p' y).
Proof.
  induction 1 as [|p e p' x p'' y N H V IH]; intros Sh Sk; [auto|].
  destruct (part_shaped p e p' x H Sh) as [A B]. exact (IH A B).
Qed.

Definition softly (p : pos) (y : expr) (d : doc) : Prop :=
  lays p y d \/ exists d0, lays p y d0 /\ d = remove_soft d0.

Lemma visited_softly p e p' y :
  visited o p e p' y -> shaped e -> (sort_of e = SoArg -> skip_asked o p e) ->
  forall d, lays p e d -> inall (softly p' y) d.
Proof.
  induction 1 as [|p e p' x p'' y N H V IH]; intros Sh Sk d L.
  - apply IA_here. left. exact L.
  - destruct L as [anc [fo [A [F [Q ->]]]]].
    destruct (part_shaped p e p' x H Sh) as [Shx Skx].
    assert (S : suppressed o anc e = false).
    { destruct (suppressed o anc e) eqn:E; [|reflexivity]. exfalso. apply N.
      exact (suppressed_asked o anc e p (proj1 (proj2 A)) E). }
    refine (inall_trans (found p' x) _ _ _ (part_found p e p' x H Sh anc fo A F Q S)).
    intros d [L|[d0 [L [-> _]]]]; [exact (IH Shx Skx d L)|].
    apply inall_remove; [|exact (IH Shx Skx d0 L)].
    intros d' [L'|[d1 [L' ->]]]; right.
    + exists d'. auto.
    + exists d1. split; [exact L'|apply remove_soft_idem].
Qed.

Lemma visited_loud p e p' y :
  (forall d, lays p' y d -> will_break (remove_soft d) = true) ->
  visited o p e p' y -> shaped e -> (sort_of e = SoArg -> skip_asked o p e) ->
  forall d, lays p e d -> inall (lays p' y) d.
Proof.
  intros Loud V. induction V as [|p e p' x p'' y N H V IH]; intros Sh Sk d L.
  - apply IA_here. exact L.
  - destruct L as [anc [fo [A [F [Q ->]]]]].
    destruct (part_shaped p e p' x H Sh) as [Shx Skx].
    assert (S : suppressed o anc e = false).
    { destruct (suppressed o anc e) eqn:E; [|reflexivity]. exfalso. apply N.
      exact (suppressed_asked o anc e p (proj1 (proj2 A)) E). }
    refine (inall_trans (found p' x) _ _ _ (part_found p e p' x H Sh anc fo A F Q S)).
    intros d [L|[d0 [L [-> B]]]]; [exact (IH Loud Shx Skx d L)|].
    rewrite (inall_loud _ _ Loud (IH Loud Shx Skx d0 L)) in B. discriminate.
Qed.

(** * In the file *)

Lemma root_inall (P : doc -> Prop) r e :
  In e (r_exprs r) -> (forall d, lays (p_stmt true) e d -> inall P d) ->
  sort_of e <> SoElse -> inall P (root_doc o pc r).
Proof.
  intros I H N. unfold root_doc. apply IA_right, IA_right, IA_left. unfold rule_expression_list.
  apply (inall_entries P true _ true e (fmt o pc [FRootList] fo0 e)).
  - exact (in_map (fun e => (e, fmt o pc [FRootList] fo0 e)) _ _ I).
  - apply H, lays0; [reflexivity|repeat split|exact N].
Qed.
Lemma in_file_softly r p y :
  root_shaped r -> in_file o r p y -> inall (softly p y) (root_doc o pc r).
Proof.
  intros Sh [e [I V]]. destruct (all_of_In _ _ _ Sh I) as [S1 S2].
  apply (root_inall _ r e I); [|congruence].
  intros d L. apply (visited_softly _ _ _ _ V S2); [congruence|exact L].
Qed.
Lemma in_file_loud r p y :
  root_shaped r -> (forall d, lays p y d -> will_break (remove_soft d) = true) ->
  in_file o r p y -> inall (lays p y) (root_doc o pc r).
Proof.
  intros Sh Lo [e [I V]]. destruct (all_of_In _ _ _ Sh I) as [S1 S2].
  apply (root_inall _ r e I); [|congruence].
  intros d L. apply (visited_loud _ _ _ _ Lo V S2); [congruence|exact L].
Qed.
Lemma in_file_shaped r p y :
  root_shaped r -> in_file o r p y -> shaped y /\ (sort_of y = SoArg -> skip_asked o p y).
Proof.
  intros Sh [e [I V]]. destruct (all_of_In _ _ _ Sh I) as [S1 S2].
  apply (visited_shaped _ _ _ _ V S2). congruence.
Qed.

(** The node's stretch of the layout. *)
Lemma in_file_segment r p y os :
  root_shaped r -> in_file o r p y -> lay Expanded (root_doc o pc r) os ->
  exists anc fo m pre os' post, agree anc p /\ fits anc p fo y /\
    glay m (fmt o pc anc fo y) os' /\ os = pre ++ os' ++ post.
Proof.
  intros Sh I L.
  destruct (inall_lay _ _ (in_file_softly r p y Sh I) _ _ L)
    as [d' [m' [pre [os' [post [S [L' ->]]]]]]].
  destruct S as [[anc [fo [A [F [_ ->]]]]]|[d0 [[anc [fo [A [F [_ ->]]]]] ->]]].
  - exists anc, fo, m', pre, os', post. split; [exact A|]. split; [exact F|].
    split; [apply lay_glay, L'|reflexivity].
  - exists anc, fo, Flat, pre, os', post. split; [exact A|]. split; [exact F|].
    split; [|reflexivity]. apply (glay_remove_soft _ m'), lay_glay, L'.
Qed.
Lemma in_file_exact r p y os :
  root_shaped r -> (forall d, lays p y d -> will_break (remove_soft d) = true) ->
  in_file o r p y -> lay Expanded (root_doc o pc r) os ->
  exists anc fo m pre os' post, agree anc p /\ fits anc p fo y /\ suited p anc fo y /\
    lay m (fmt o pc anc fo y) os' /\ os = pre ++ os' ++ post.
Proof.
  intros Sh Lo I L.
  destruct (inall_lay _ _ (in_file_loud r p y Sh Lo I) _ _ L)
    as [d' [m' [pre [os' [post [[anc [fo [A [F [Q ->]]]]] [L' ->]]]]]]].
  exists anc, fo, m', pre, os', post. auto.
Qed.
End Paths.
