(** With persistent line breaks off, single line breaks of the source do not
    matter (C46). *)
From Coq Require Import List Arith Bool NArith Lia.
From Verif Require Import Text SettingsModel SyntaxKind DirectiveModel FmtTree
  IrModel TableModel FmtModel FmtSpec FmtPathSpec FmtProofs FmtTidyProofs.
Import ListNotations.

Lemma existsb_false {A : Type} (f : A -> bool) l :
  (forall x, In x l -> f x = false) -> existsb f l = false.
Proof.
  induction l as [|x l IH]; intros H; [reflexivity|]. cbn [existsb].
  rewrite (H x (or_introl eq_refl)), IH; [reflexivity|]. intros y I. apply H. right. exact I.
Qed.

Section Off.
Variable o : format_options.
Variable pc : doc -> option (list piece).
Hypothesis Per : o_persistent_line_breaks o = PIgnore.

Lemma notes_unbroken k e : notes_of (unbroken k e) = unbroken_notes k (notes_of e).
Proof. destruct e; reflexivity. Qed.
Lemma lines_one k : (1 <? unbroken_lines k) = (1 <? k).
Proof.
  unfold unbroken_lines. destruct (k <=? 1) eqn:E; [|reflexivity].
  apply Nat.leb_le in E. symmetry. apply Nat.ltb_ge. exact E.
Qed.
Lemma lines_most k : (unbroken_lines k <=? 1) = (k <=? 1).
Proof. unfold unbroken_lines. destruct (k <=? 1) eqn:E; [reflexivity|exact E]. Qed.
Lemma break_unbroken d k : entry_break d (unbroken_lines k) = entry_break d k.
Proof.
  unfold unbroken_lines. destruct (k <=? 1) eqn:E; [|reflexivity].
  apply Nat.leb_le in E. destruct k as [|[|k]]; [reflexivity|destruct d; reflexivity|lia].
Qed.
Lemma is_braced_unbroken k e : is_braced (unbroken k e) = is_braced e.
Proof. destruct e; reflexivity. Qed.
Lemma is_if_unbroken k e : is_if (unbroken k e) = is_if e.
Proof. destruct e; reflexivity. Qed.
Lemma is_binary_unbroken k e : is_binary (unbroken k e) = is_binary e.
Proof. destruct e; reflexivity. Qed.
Lemma called_unbroken k f : called_name (unbroken k f) = called_name f.
Proof. destruct f; try reflexivity. destruct f2; reflexivity. Qed.
Lemma call_args_unbroken k e : is_call_args (unbroken k e) = is_call_args e.
Proof. destruct e; reflexivity. Qed.
Lemma direct_unbroken d anc k n : has_directive d anc (unbroken_notes k n) = has_directive d anc n.
Proof. reflexivity. Qed.
Lemma suppressed_unbroken anc k e : suppressed o anc (unbroken k e) = suppressed o anc e.
Proof.
  unfold suppressed. rewrite notes_unbroken. destruct e; try reflexivity.
  cbn [unbroken]. rewrite call_args_unbroken. unfold in_setting. rewrite called_unbroken. reflexivity.
Qed.

Lemma undirected_free anc e : undirected o e -> suppressed o anc e = false.
Proof.
  intros [H1 H2]. unfold suppressed.
  assert (D : has_directive DSkip anc (notes_of e) = false).
  { unfold has_directive. destruct (can_have_directive anc); [|reflexivity]. cbn [andb].
    apply existsb_false. intros c I. destruct (H1 c I) as [N _].
    destruct (parse_comment_directive (c_text c)) as [[]|]; try reflexivity. congruence. }
  rewrite D. cbn [orb]. destruct e; try reflexivity.
  destruct (in_setting (o_skip o) e1) eqn:E; [|apply andb_false_r].
  destruct (proj1 H2). apply in_setting_listed. exact E.
Qed.
Lemma undirected_table anc e : undirected o e -> has_directive DTable anc (notes_of e) = false.
Proof.
  intros [H1 _]. unfold has_directive. destruct (can_have_directive anc); [|reflexivity]. cbn [andb].
  apply existsb_false. intros c I. destruct (H1 c I) as [_ N].
  destruct (parse_comment_directive (c_text c)) as [[]|]; try reflexivity. congruence.
Qed.

Lemma node_unbroken anc k e f f' d d' :
  undirected o e -> f' = f -> d' = d ->
  node_rule o anc (unbroken k e) f' d' = node_rule o anc e f d.
Proof.
  intros U -> ->. unfold node_rule. rewrite suppressed_unbroken, (undirected_free anc e U).
  rewrite notes_unbroken. reflexivity.
Qed.
Lemma node_soft_unbroken anc k e f f' :
  undirected o e -> f' = f -> node_rule_soft o anc (unbroken k e) f' = node_rule_soft o anc e f.
Proof.
  intros U E. apply node_unbroken; [exact U|exact E|]. rewrite notes_unbroken. reflexivity.
Qed.

(** Arguments. *)
Definition uinfo (a : ainfo) : ainfo :=
  {| ai_node := unbroken false (ai_node a); ai_doc := ai_doc a; ai_fields := ai_fields a;
     ai_function := ai_function a; ai_poor := ai_poor a |}.
Definition usep (a : ainfo * bool) : ainfo * bool := (uinfo (fst a), snd a).
Lemma with_seps_map l : with_seps (map uinfo l) = map usep (with_seps l).
Proof.
  induction l as [|a l IH]; [reflexivity|]. destruct l as [|b l]; [reflexivity|].
  change ((uinfo a, true) :: with_seps (map uinfo (b :: l)) =
          usep (a, true) :: map usep (with_seps (b :: l))). rewrite IH. reflexivity.
Qed.
Lemma is_hole_unbroken e : is_hole (unbroken false e) = is_hole e.
Proof. destruct e; try reflexivity. destruct nm, v; reflexivity. Qed.
Lemma leading_hole_usep a : leading_hole (usep a) = leading_hole a.
Proof.
  unfold leading_hole. cbn [usep fst uinfo ai_node]. rewrite is_hole_unbroken, notes_unbroken.
  reflexivity.
Qed.
Lemma take_holes_usep l : take_holes (map usep l) = map usep (take_holes l).
Proof.
  induction l as [|a l IH]; [reflexivity|]. cbn [map take_holes]. rewrite leading_hole_usep.
  destruct (leading_hole a); [cbn [map]; rewrite IH|]; reflexivity.
Qed.
Lemma drop_holes_usep l : drop_holes (map usep l) = map usep (drop_holes l).
Proof.
  induction l as [|a l IH]; [reflexivity|]. cbn [map drop_holes]. rewrite leading_hole_usep.
  destruct (leading_hole a); [exact IH|reflexivity].
Qed.
Lemma arg_lines_usep a : arg_lines (usep a) = unbroken_lines (arg_lines a).
Proof. unfold arg_lines. cbn [usep fst uinfo ai_node]. rewrite notes_unbroken. reflexivity. Qed.
Lemma hole_lines_usep a : hole_lines (usep a) = unbroken_lines (hole_lines a).
Proof.
  unfold hole_lines. cbn [usep fst snd uinfo ai_node]. destruct (ai_node (fst a)); try reflexivity.
  cbn [unbroken]. destruct (snd a); reflexivity.
Qed.
Lemma existsb_usep f g l : (forall a, f (usep a) = g a) -> existsb f (map usep l) = existsb g l.
Proof.
  intros H. induction l as [|a l IH]; [reflexivity|]. cbn [map existsb]. rewrite H, IH. reflexivity.
Qed.
Lemma arg_doc_usep a : arg_doc (usep a) = arg_doc a.
Proof. reflexivity. Qed.
Lemma broken_args_usep f l : broken_args f (map usep l) = broken_args f l.
Proof.
  revert f. induction l as [|a l IH]; intros f; [reflexivity|]. cbn [map broken_args].
  rewrite IH, arg_lines_usep, lines_most. reflexivity.
Qed.
Lemma holes_doc_usep l : holes_doc (map usep l) = holes_doc l.
Proof. unfold holes_doc. rewrite map_map. reflexivity. Qed.
Lemma nonempty_usep l : nonempty (map usep l) = nonempty l.
Proof. destruct l; reflexivity. Qed.
Lemma is_hugging_usep l rc : is_hugging (map usep l) rc = is_hugging l rc.
Proof.
  destruct l as [|a [|b l]]; try reflexivity. cbn [map is_hugging usep fst uinfo ai_node].
  destruct (ai_node (fst a)); try reflexivity. destruct nm, v as [v|]; try reflexivity.
  cbn [unbroken opt_with]. rewrite notes_unbroken. destruct v; reflexivity.
Qed.
Lemma all_broken_usep l r rc hs args x :
  all_broken_out l r rc (map usep hs) (map usep args) x = all_broken_out l r rc hs args x.
Proof.
  unfold all_broken_out. rewrite broken_args_usep, holes_doc_usep, !nonempty_usep, is_hugging_usep.
  reflexivity.
Qed.
Lemma last_opt_map {A B : Type} (f : A -> B) l : last_opt (map f l) = option_map f (last_opt l).
Proof.
  induction l as [|a l IH]; [reflexivity|]. destruct l as [|b l]; [reflexivity|].
  change (last_opt (map f (b :: l)) = option_map f (last_opt (b :: l))). exact IH.
Qed.
Lemma removelast_map {A B : Type} (f : A -> B) l : removelast (map f l) = map f (removelast l).
Proof.
  induction l as [|a l IH]; [reflexivity|]. destruct l as [|b l]; [reflexivity|].
  change (f a :: removelast (map f (b :: l)) = f a :: map f (removelast (b :: l))). rewrite IH.
  reflexivity.
Qed.
Lemma join_grouped_usep only w l : forall f,
  join_grouped only f w (map usep l) = join_grouped only f w l.
Proof.
  induction l as [|a l IH]; intros f; [reflexivity|]. cbn [map join_grouped]. rewrite IH.
  destruct l; reflexivity.
Qed.
Lemma write_grouped_usep l r rc hs args :
  write_grouped l r rc (map usep hs) (map usep args) = write_grouped l r rc hs args.
Proof.
  unfold write_grouped. rewrite last_opt_map. destruct (last_opt args) as [a|]; cbn [option_map];
    rewrite !all_broken_usep; [|reflexivity].
  rewrite removelast_map, (existsb_usep _ (fun a => will_break (arg_doc a))) by reflexivity.
  rewrite map_length, holes_doc_usep, !nonempty_usep, !join_grouped_usep. reflexivity.
Qed.
Lemma variant_unbroken anc k n es :
  match variant_of anc (unbroken_notes k n) (map (unbroken false) es), variant_of anc n es with
  | BCurlyCurly a, BCurlyCurly b => a = unbroken_notes false b
  | x, y => x = y
  end.
Proof.
  destruct es as [|x [|y l]]; [cbn; destruct (n_dang n); reflexivity| |].
  - destruct x; try reflexivity. destruct es as [|x [|y l]]; try reflexivity.
    + destruct x; try reflexivity. cbn.
      destruct (_ && _); reflexivity.
    + cbn. destruct x; reflexivity.
  - cbn. destruct x; try reflexivity. destruct es as [|z [|? ?]]; try reflexivity;
      cbn; destruct z; reflexivity.
Qed.
Lemma groupable_unbroken k v : value_groupable (unbroken k v) = value_groupable v.
Proof.
  assert (B : forall k n es, braces_groupable (unbroken_notes k n) (map (unbroken false) es) =
                             braces_groupable n es).
  { intros k' n es. unfold braces_groupable. pose proof (variant_unbroken [FArg] k' n es) as H.
    destruct (variant_of [FArg] _ _), (variant_of [FArg] n es); congruence. }
  destruct v; try reflexivity; cbn [unbroken value_groupable].
  - destruct v2; try reflexivity. apply B.
  - apply B.
Qed.
Lemma group_last_unbroken items : group_last (map (unbroken false) items) = group_last items.
Proof.
  unfold group_last. rewrite last_opt_map. destruct (last_opt items) as [a|]; [|reflexivity].
  cbn [option_map]. destruct a; try reflexivity. cbn [unbroken].
  f_equal; [f_equal|].
  - destruct nm as [c|]; [|reflexivity]. cbn [opt_with]. rewrite notes_unbroken. reflexivity.
  - destruct v; [apply groupable_unbroken|reflexivity].
Qed.
Lemma arg_value_unbroken a :
  arg_value (unbroken false a) = opt_with (unbroken false) (arg_value a).
Proof. destruct a; reflexivity. Qed.
Lemma test_call_unbroken items : is_test_call (map (unbroken false) items) = is_test_call items.
Proof.
  destruct items as [|a [|b [|c l]]]; try reflexivity. cbn [map is_test_call].
  rewrite !arg_value_unbroken. destruct (arg_value a) as [x|], (arg_value b) as [y|]; try reflexivity.
  cbn [opt_with]. rewrite is_braced_unbroken. destruct x; reflexivity.
Qed.
Lemma call_like_unbroken k' n k rc infos :
  rule_call_like o (unbroken_notes k' n) k rc (map uinfo infos) = rule_call_like o n k rc infos.
Proof.
  unfold rule_call_like.
  replace (map ai_node (map uinfo infos)) with (map (unbroken false) (map ai_node infos))
    by (rewrite !map_map; reflexivity).
  rewrite test_call_unbroken, group_last_unbroken, with_seps_map.
  destruct infos as [|i infos]; [reflexivity|]. cbn [map].
  destruct (match k with KCall => _ | _ => false end) eqn:T.
  - f_equal. f_equal. f_equal.
    generalize true. generalize (with_seps (i :: infos)). intros l.
    induction l as [|a l IH]; intros f; [reflexivity|]. cbn [map]. rewrite IH. reflexivity.
  - rewrite take_holes_usep, drop_holes_usep.
    rewrite (existsb_usep _ (fun a => 1 <? hole_lines a))
      by (intros a; rewrite hole_lines_usep; apply lines_one).
    rewrite (existsb_usep _ (fun a => 1 <? arg_lines a))
      by (intros a; rewrite arg_lines_usep; apply lines_one).
    unfold persist. rewrite Per. cbn [andb].
    rewrite !all_broken_usep, write_grouped_usep. reflexivity.
Qed.

Lemma join_entries_unbroken d l f :
  join_entries d f (map (fun x => (unbroken false (fst x), snd x)) l) = join_entries d f l.
Proof.
  revert f. induction l as [|[e x] l IH]; intros f; [reflexivity|]. cbn [map join_entries fst snd].
  rewrite IH, notes_unbroken. cbn [unbroken_notes n_lines]. rewrite break_unbroken. reflexivity.
Qed.
Lemma join_params_unbroken l : forall f,
  join_params f (map (fun x => (unbroken false (fst x), snd x)) l) = join_params f l.
Proof.
  induction l as [|[e x] l IH]; intros f; [reflexivity|]. cbn [map join_params fst snd].
  rewrite IH, notes_unbroken. cbn [unbroken_notes n_lines]. rewrite lines_one.
  destruct l; reflexivity.
Qed.

(** Chains. *)
Definition utail (p : tail_piece) : tail_piece :=
  {| tp_op := tp_op p; tp_right := unbroken false (tp_right p); tp_doc := tp_doc p;
     tp_enclosing := option_map (unbroken_notes false) (tp_enclosing p) |}.
Lemma chain_unbroken left dl tail :
  rule_chain o left dl (map utail tail) = rule_chain o left dl tail.
Proof.
  unfold rule_chain, persistent_chain, persist. rewrite Per. cbn [andb].
  replace (map chain_piece (map utail tail)) with (map chain_piece tail); [reflexivity|].
  rewrite map_map. apply map_ext. intros p. unfold chain_piece. cbn [utail tp_enclosing tp_op
    tp_right tp_doc]. rewrite notes_unbroken. cbn [unbroken_notes n_lines]. rewrite lines_one.
  destruct (tp_enclosing p); reflexivity.
Qed.

Definition same (e : expr) : Prop :=
  everywhere (undirected o) e -> forall k anc fo, fo_table fo <> Some true ->
  fmt o pc anc fo (unbroken k e) = fmt o pc anc fo e.

Lemma everywhere_self Q e : everywhere Q e -> Q e.
Proof. destruct e; intros H; exact (proj1 H). Qed.

Lemma spine_unbroken N : (forall x, esize x < N -> same x) -> forall l anc,
  esize l < N -> everywhere (undirected o) l ->
  spine o pc anc (unbroken false l) =
  (fst (spine o pc anc l), map utail (snd (spine o pc anc l))).
Proof.
  intros IH l. induction l using expr_ind'; intros anc Sz U;
    try (cbn [spine unbroken snd fst map]; f_equal; refine (IH _ Sz U false anc fo0 _); discriminate).
  cbn [unbroken spine]. cbn [esize] in Sz. destruct U as [U1 [U2 U3]].
  destruct (is_chain_op op) eqn:E.
  - rewrite IHl1 by (lia || assumption).
    destruct (spine o pc (FBinary op :: anc) l1) as [dl tl]. cbn [fst snd].
    rewrite map_app. cbn [map utail tp_op tp_right tp_doc tp_enclosing option_map].
    f_equal. f_equal. unfold utail; cbn [tp_op tp_right tp_doc tp_enclosing option_map]. f_equal.
    f_equal. apply IH; [lia|assumption|discriminate].
  - cbn [fst snd map]. f_equal.
    refine (IH (EBinary n l1 op l2) _ _ false anc fo0 _); [exact Sz|exact (conj U1 (conj U2 U3))|].
    discriminate.
Qed.
Lemma call_options_table anc n fo f args :
  fo_table fo <> Some true -> undirected o (ECall n f args) ->
  call_options o anc n fo f args = fo_with_table false.
Proof.
  intros T U. unfold call_options. f_equal.
  destruct (is_call_args args); [|reflexivity]. cbn [andb].
  destruct (fo_table fo) as [[]|]; [congruence|reflexivity|].
  pose proof (undirected_table anc _ U) as D. cbn [notes_of] in D. rewrite D. cbn [orb].
  destruct (in_setting (o_table o) f) eqn:E; [|reflexivity].
  destruct (proj2 (proj2 U)). apply in_setting_listed. exact E.
Qed.
Lemma undirected_unbroken k e : undirected o e -> undirected o (unbroken k e).
Proof.
  intros [A B]. split; [rewrite notes_unbroken; exact A|]. destruct e; try exact I.
  assert (L : forall s, listed s (unbroken false e1) -> listed s e1).
  { intros s [l [name [E [C H]]]]. exists l, name. split; [exact E|]. split; [|exact H].
    clear - C. remember (unbroken false e1) as x eqn:X. destruct C.
    - destruct e1; try discriminate X. injection X as _ <- <-. constructor.
    - destruct e1 as [| | | |n2 l2 op2 r2| | | | | | | | | | | | | | |]; try discriminate X.
      destruct r2; try discriminate X. injection X as _ _ _ _ <- <-. constructor. }
  split; intros H; [apply (proj1 B)|apply (proj2 B)]; apply L, H.
Qed.

Lemma all_same (P : expr -> Prop) l : all_of P l -> Forall P l.
Proof. induction l as [|x l IH]; intros H; [constructor|]. destruct H. constructor; auto. Qed.

Lemma fmt_unbroken : forall N e, esize e < N -> same e.
Proof.
  induction N as [|N IH]; intros e Sz; [lia|]. intros U k anc fo T.
  assert (Sub : forall x, esize x < esize e -> same x) by (intros x H; apply IH; lia).
  clear IH Sz N. pose proof (everywhere_self _ _ U) as Us.
  assert (NT : forall b, fo_table (fo_with_braced b) <> Some true) by discriminate.
  assert (NG : fo_table fo_with_grouped <> Some true) by discriminate.
  assert (N0 : fo_table fo0 <> Some true) by discriminate.
  destruct e.
  - refine (node_soft_unbroken anc k _ _ _ Us eq_refl).
  - cbn [fmt unbroken]. refine (node_soft_unbroken anc k (EUnary n op e) _ _ Us _).
    unfold rule_unary. rewrite notes_unbroken.
    rewrite Sub by (cbn [esize]; lia || apply U || exact N0).
    destruct e; reflexivity.
  - destruct U as [_ [U1 U2]]. destruct (classify (t_kind op)) eqn:C.
    3: { change (unbroken k (EBinary n e1 op e2)) with
        (EBinary (unbroken_notes k n) (unbroken false e1) op (unbroken false e2)).
      rewrite !fmt_chain by exact C. refine (node_soft_unbroken anc k (EBinary n e1 op e2) _ _ Us _).
      rewrite (spine_unbroken (esize (EBinary n e1 op e2)) Sub) by (cbn [esize]; lia || assumption).
      destruct (spine o pc (FBinary op :: anc) e1) as [dl tl]. cbn [fst snd].
      etransitivity; [|apply chain_unbroken]. f_equal. rewrite map_app. f_equal. cbn [map]. f_equal.
      unfold utail. cbn [tp_op tp_right tp_doc tp_enclosing option_map]. f_equal.
      apply Sub; [cbn [esize]; lia|exact U2|exact N0]. }
    all: cbn [fmt unbroken]; rewrite C; refine (node_soft_unbroken anc k (EBinary n e1 op e2) _ _ Us _).
    + rewrite !Sub by (cbn [esize]; lia || assumption). reflexivity.
    + unfold rule_assignment, rhs_options, persistent_assignment, persist. rewrite Per. cbn [andb].
      pose proof (undirected_table anc _ Us) as UT. cbn [notes_of] in UT. rewrite UT. cbn [andb].
      rewrite direct_unbroken, UT.
      assert (E : forall x, match x with ECall _ _ args => fo0 | _ => fo0 end = fo0)
        by (intros []; reflexivity).
      cbn [andb]. rewrite !E. rewrite !Sub by (cbn [esize]; lia || assumption). reflexivity.
    + rewrite !Sub by (cbn [esize]; lia || assumption). reflexivity.
    + reflexivity.
  - cbn [fmt unbroken]. refine (node_soft_unbroken anc k (EExtract n e1 op e2) _ _ Us _).
    destruct U as [_ [U1 U2]]. rewrite !Sub by (cbn [esize]; lia || assumption). reflexivity.
  - cbn [fmt unbroken]. refine (node_soft_unbroken anc k (ENamespace n e1 op e2) _ _ Us _).
    destruct U as [_ [U1 U2]]. rewrite !Sub by (cbn [esize]; lia || assumption). reflexivity.
  - cbn [fmt unbroken]. refine (node_soft_unbroken anc k (EFunction n name e1 e2) _ _ Us _).
    destruct U as [_ [U1 U2]]. rewrite !Sub by (cbn [esize]; lia || assumption).
    unfold rule_function, function_body. rewrite is_braced_unbroken, notes_unbroken. reflexivity.
  - cbn [fmt unbroken]. refine (node_unbroken anc k (EParams n items) _ _ _ _ Us _ eq_refl).
    destruct U as [_ U]. apply all_same in U. rewrite Forall_forall in U.
    rewrite map_map. unfold rule_params.
    assert (E : map (fun x => (unbroken false x, fmt o pc (FParamList :: anc) fo0 (unbroken false x))) items
      = map (fun x => (unbroken false (fst x), snd x))
          (map (fun x => (x, fmt o pc (FParamList :: anc) fo0 x)) items)).
    { rewrite map_map. apply map_ext_in. intros x I. cbn [fst snd].
      rewrite Sub; [reflexivity| |apply U, I|exact N0].
      pose proof (esize_In x items I). cbn [esize]. lia. }
    rewrite E. clear E. destruct items as [|x l]; [reflexivity|].
    cbn [map]. unfold persist. rewrite Per. cbn [andb].
    f_equal. f_equal. f_equal. f_equal. apply f_equal.
    exact (join_params_unbroken
      ((x, fmt o pc (FParamList :: anc) fo0 x) :: map (fun y => (y, fmt o pc (FParamList :: anc) fo0 y)) l) true).
  - cbn [fmt unbroken]. refine (node_soft_unbroken anc k (EParam n e dflt) _ _ Us _).
    destruct U as [_ [U1 U2]]. destruct dflt as [d|]; cbn [opt_with opt_all] in *;
    rewrite !Sub by (cbn [esize]; lia || assumption); reflexivity.
  - cbn [fmt unbroken]. refine (node_soft_unbroken anc k (EDefault n e) _ _ Us _).
    destruct U as [_ U1]. rewrite !Sub by (cbn [esize]; lia || assumption). reflexivity.
  - cbn [fmt unbroken]. refine (node_soft_unbroken anc k (EIf n e1 e2 e3) _ _ Us _).
    destruct U as [_ [U1 [U2 U3]]].
    assert (B : compute_braced anc (unbroken true e2) (opt_with (unbroken false) e3) =
                compute_braced anc e2 e3).
    { unfold compute_braced. rewrite is_braced_unbroken, is_if_unbroken, notes_unbroken.
      cbn [unbroken_notes n_newline andb]. destruct e3 as [x|]; [|reflexivity].
      destruct x; try reflexivity. cbn [opt_with unbroken].
      rewrite is_braced_unbroken, is_if_unbroken, notes_unbroken. reflexivity. }
    rewrite B. unfold rule_if, if_body. rewrite is_braced_unbroken, is_if_unbroken.
    rewrite !Sub by (cbn [esize]; lia || assumption). f_equal. f_equal.
    destruct e3 as [x|]; cbn [opt_with opt_all] in *; [|reflexivity].
    rewrite !Sub by (cbn [esize]; lia || assumption || apply NT). reflexivity.
  - cbn [fmt unbroken]. refine (node_soft_unbroken anc k (EElse n nl e) _ _ Us _).
    destruct U as [_ U1]. rewrite is_if_unbroken.
    unfold rule_else, if_body. rewrite is_braced_unbroken, is_if_unbroken.
    rewrite !Sub by (cbn [esize]; lia || assumption || (destruct (is_if e); [apply NT|assumption])).
    reflexivity.
  - cbn [fmt unbroken]. refine (node_soft_unbroken anc k (EFor n e1 e2 e3) _ _ Us _).
    destruct U as [_ [U1 [U2 U3]]]. unfold rule_for, loop_body. rewrite is_braced_unbroken.
    rewrite !Sub by (cbn [esize]; lia || assumption). reflexivity.
  - cbn [fmt unbroken]. refine (node_soft_unbroken anc k (EWhile n e1 e2) _ _ Us _).
    destruct U as [_ [U1 U2]]. unfold rule_while, loop_body. rewrite is_braced_unbroken.
    rewrite !Sub by (cbn [esize]; lia || assumption). reflexivity.
  - cbn [fmt unbroken]. refine (node_soft_unbroken anc k (ERepeat n e) _ _ Us _).
    destruct U as [_ U1]. unfold rule_repeat, loop_body. rewrite is_braced_unbroken.
    rewrite !Sub by (cbn [esize]; lia || assumption). reflexivity.
  - cbn [fmt unbroken]. refine (node_unbroken anc k (EBraced n es) _ _ _ _ Us _ eq_refl).
    destruct U as [_ U]. apply all_same in U. rewrite Forall_forall in U.
    assert (L : forall l, (forall x, In x l -> In x es) ->
      (fix go (l : list expr) : list (expr * doc) :=
         match l with
         | [] => []
         | x :: r => (x, fmt o pc (FBracedList (is_last r) :: anc) fo0 x) :: go r
         end) (map (unbroken false) l) =
      map (fun x => (unbroken false (fst x), snd x))
      ((fix go (l : list expr) : list (expr * doc) :=
         match l with
         | [] => []
         | x :: r => (x, fmt o pc (FBracedList (is_last r) :: anc) fo0 x) :: go r
         end) l)).
    { induction l as [|x l IHl]; intros In'; [reflexivity|]. cbn [map fst snd].
      rewrite IHl by (intros y Y; apply In'; right; exact Y).
      assert (Ix : In x es) by (apply In'; left; reflexivity).
      rewrite Sub; [|pose proof (esize_In x es Ix); cbn [esize]; lia|apply U, Ix|exact N0].
      destruct l; reflexivity. }
    rewrite L by auto. clear L. unfold rule_expression_list. rewrite join_entries_unbroken.
    assert (In' : match map (unbroken false) es with
      | [EBraced _ [x]] => fmt o pc (FBracedList true :: FBracedList true :: anc) fo0 x
      | _ => DNil end = match es with
      | [EBraced _ [x]] => fmt o pc (FBracedList true :: FBracedList true :: anc) fo0 x
      | _ => DNil end).
    { destruct es as [|x [|y l]]; try reflexivity.
      - destruct x; try reflexivity. destruct es as [|x [|y l]]; try reflexivity.
        cbn [map unbroken]. specialize (U _ (or_introl eq_refl)). destruct U as [_ [U _]].
        apply Sub; [cbn [esize fold_right]; lia|exact U|exact N0].
      - cbn [map]. destruct x; try reflexivity. cbn [unbroken]. destruct es as [|? [|? ?]]; reflexivity. }
    rewrite In'. clear In'. pose proof (variant_unbroken anc k n es) as V.
    destruct (variant_of anc (unbroken_notes k n) _), (variant_of anc n es); try discriminate;
      try reflexivity. rewrite V. reflexivity.
  - cbn [fmt unbroken]. refine (node_soft_unbroken anc k (EParen n e) _ _ Us _).
    destruct U as [_ U1]. unfold rule_paren. rewrite notes_unbroken.
    rewrite !Sub by (cbn [esize]; lia || assumption). reflexivity.
  - cbn [fmt unbroken]. refine (node_soft_unbroken anc k (ECall n e1 e2) _ _ Us _).
    destruct U as [_ [U1 U2]].
    pose proof (undirected_unbroken k _ Us) as Us'. cbn [unbroken] in Us'.
    rewrite (call_options_table anc _ fo _ _ T Us), (call_options_table anc _ fo _ _ T Us').
    rewrite !Sub by (cbn [esize]; lia || assumption || discriminate). reflexivity.
  - cbn [unbroken]. rewrite !fmt_args.
    refine (node_unbroken anc k (EArgs n k0 rc items) _ _ _ _ Us _ eq_refl).
    destruct U as [_ U]. apply all_same in U. rewrite Forall_forall in U.
    assert (E : map (arg_info o pc anc) (map (unbroken false) items) =
                map uinfo (map (arg_info o pc anc) items)).
    { rewrite !map_map. apply map_ext_in. intros x Ix. specialize (U x Ix).
      pose proof (esize_In x items Ix) as Sx.
      assert (Sx' : esize x < esize (EArgs n k0 rc items)) by (cbn [esize]; lia).
      unfold uinfo, arg_info. cbn [ai_node ai_doc ai_fields ai_function ai_poor].
      rewrite (Sub x Sx' U false) by exact N0.
      destruct x; try reflexivity. cbn [unbroken]. destruct U as [_ [U1 U2]].
      assert (F : argument_fields
          match opt_with (unbroken false) nm with
          | Some c => Some (fmt o pc (FArg :: FArgList :: anc) fo0 c) | None => None end
          match opt_with (unbroken false) v with
          | Some c => Some (fmt o pc (FArg :: FArgList :: anc) fo0 c) | None => None end =
        argument_fields
          match nm with
          | Some c => Some (fmt o pc (FArg :: FArgList :: anc) fo0 c) | None => None end
          match v with
          | Some c => Some (fmt o pc (FArg :: FArgList :: anc) fo0 c) | None => None end).
      { destruct nm as [c|], v as [v|]; cbn [opt_with opt_all esize] in *;
        rewrite ?Sub by (cbn [esize]; lia || assumption); reflexivity. }
      rewrite F. clear F. destruct v as [v|]; [|reflexivity]. cbn [opt_with opt_all] in *.
      destruct v; try reflexivity. cbn [unbroken].
      assert (Ef : fmt o pc (FArg :: FArgList :: anc) fo_with_grouped
          (EFunction (unbroken_notes false n1) name (unbroken false v1) (unbroken true v2)) =
        fmt o pc (FArg :: FArgList :: anc) fo_with_grouped (EFunction n1 name v1 v2)).
      { refine (Sub (EFunction n1 name v1 v2) _ U2 false _ fo_with_grouped NG).
        cbn [esize] in Sx' |- *. destruct nm; lia. }
      rewrite Ef. clear Ef. destruct U2 as [_ [U2 U3]].
      rewrite (Sub v1) by (cbn [esize] in Sx' |- *; (destruct nm; lia) || assumption).
      destruct nm as [c|]; [|reflexivity]. cbn [opt_with opt_all] in *.
      rewrite (Sub c) by (cbn [esize] in Sx' |- *; lia || assumption). reflexivity. }
    rewrite E. clear E. unfold rule_args.
    destruct (fo_table fo) as [[]|]; [congruence| |];
      (destruct k0; [destruct (map uinfo _) eqn:Em; rewrite <- ?Em|..]; apply call_like_unbroken).
  - cbn [fmt unbroken]. refine (node_soft_unbroken anc k (EArg n nm v sl) _ _ Us _).
    destruct U as [_ [U1 U2]]. destruct nm as [c|], v as [v|]; cbn [opt_with opt_all] in *;
    rewrite ?Sub by (cbn [esize]; lia || assumption); reflexivity.
  - cbn [fmt unbroken]. refine (node_soft_unbroken anc k (ENameClause n e) _ _ Us _).
    destruct U as [_ U1]. rewrite !Sub by (cbn [esize]; lia || assumption). reflexivity.
Qed.

Lemma root_unbroken r : Forall (everywhere (undirected o)) (r_exprs r) ->
  root_doc o pc (unbroken_root r) = root_doc o pc r.
Proof.
  intros U. unfold root_doc, unbroken_root. cbn [r_notes r_bom r_exprs].
  f_equal. f_equal. f_equal. unfold rule_expression_list.
  rewrite <- (join_entries_unbroken true (map (fun e => (e, fmt o pc [FRootList] fo0 e)) (r_exprs r))).
  rewrite !map_map. apply (f_equal2 cons); [|reflexivity]. apply f_equal. apply map_ext_in.
  intros x I. cbn [fst snd].
  rewrite Forall_forall in U. rewrite (fmt_unbroken (S (esize x)) x (Nat.lt_succ_diag_r _) (U x I));
    [reflexivity|discriminate].
Qed.
Lemma off_same r r' : Forall (everywhere (undirected o)) (r_exprs r) ->
  Forall (everywhere (undirected o)) (r_exprs r') -> unbroken_root r = unbroken_root r' ->
  root_doc o pc r = root_doc o pc r'.
Proof.
  intros U U' E. rewrite <- (root_unbroken r U), <- (root_unbroken r' U'), E. reflexivity.
Qed.
End Off.
