From Coq Require Import List NArith ZArith Bool Arith Lia String Permutation.
From Verif Require Import Text TextFacts BinSearchModel BinSearchProofs LineEndingModel
  LineEndingSpec LineEndingProofs SettingsModel SettingsSpec.
Import ListNotations.

(* bounded numbers *)
Lemma indent_width_iff : forall v n,
  indent_width_try_from_int v = Some n <-> (1 <= v <= 24)%Z /\ n = Z.to_N v.
Proof.
  intros v n. unfold indent_width_try_from_int, to_unsigned, indent_width_try_from_u8,
    indent_width_try_from_nonzero, indent_width_max.
  change (2 ^ Z.of_N 8)%Z with 256%Z.
  destruct (0 <=? v)%Z eqn:E1; destruct (v <? 256)%Z eqn:E2; cbn [andb];
    try (apply Z.leb_le in E1); try (apply Z.leb_gt in E1);
    try (apply Z.ltb_lt in E2); try (apply Z.ltb_ge in E2);
    try (split; [discriminate|lia]).
  destruct (Z.to_N v =? 0)%N eqn:E3.
  - apply N.eqb_eq in E3. split; [discriminate|lia].
  - apply N.eqb_neq in E3. destruct (Z.to_N v <=? 24)%N eqn:E4.
    + apply N.leb_le in E4. split; [|intros [_ ->]; reflexivity].
      intro H. inversion H. lia.
    + apply N.leb_gt in E4. split; [discriminate|lia].
Qed.

Lemma line_width_iff : forall v n,
  line_width_try_from_int v = Some n <-> (1 <= v <= 320)%Z /\ n = Z.to_N v.
Proof.
  intros v n. unfold line_width_try_from_int, to_unsigned, line_width_try_from_u16,
    line_width_try_from_nonzero, line_width_max.
  change (2 ^ Z.of_N 16)%Z with 65536%Z.
  destruct (0 <=? v)%Z eqn:E1; destruct (v <? 65536)%Z eqn:E2; cbn [andb];
    try (apply Z.leb_le in E1); try (apply Z.leb_gt in E1);
    try (apply Z.ltb_lt in E2); try (apply Z.ltb_ge in E2);
    try (split; [discriminate|lia]).
  destruct (Z.to_N v =? 0)%N eqn:E3.
  - apply N.eqb_eq in E3. split; [discriminate|lia].
  - apply N.eqb_neq in E3. destruct (Z.to_N v <=? 320)%N eqn:E4.
    + apply N.leb_le in E4. split; [|intros [_ ->]; reflexivity].
      intro H. inversion H. lia.
    + apply N.leb_gt in E4. split; [discriminate|lia].
Qed.

Lemma vsc_width_iff : forall n,
  indent_width_from_usize n = (if ((1 <=? n) && (n <=? 24))%Z%bool then Z.to_N n else 2%N).
Proof.
  intro n. unfold indent_width_from_usize.
  destruct ((1 <=? n) && (n <=? 24))%Z%bool eqn:E.
  - apply andb_true_iff in E. destruct E as [E1 E2].
    apply Z.leb_le in E1. apply Z.leb_le in E2.
    replace (indent_width_try_from_int n) with (Some (Z.to_N n)); [reflexivity|].
    symmetry. apply indent_width_iff. lia.
  - destruct (indent_width_try_from_int n) as [m|] eqn:E2; [|reflexivity].
    apply indent_width_iff in E2. destruct E2 as [E2 _].
    apply andb_false_iff in E. destruct E as [E|E]; apply Z.leb_gt in E; lia.
Qed.

(* text order *)
Lemma text_cmp_eq : forall a b, text_cmp a b = Eq <-> a = b.
Proof.
  induction a as [|x a IH]; intros [|y b]; cbn; split; intro H; try congruence; try discriminate.
  - destruct (N.compare_spec x y) as [E|E|E]; try discriminate. subst. f_equal. apply IH. exact H.
  - inversion H; subst. rewrite N.compare_refl. apply IH. reflexivity.
Qed.

Lemma text_cmp_refl : forall a, text_cmp a a = Eq.
Proof. intro a. apply text_cmp_eq. reflexivity. Qed.

Lemma text_cmp_antisym : forall a b, text_cmp b a = CompOpp (text_cmp a b).
Proof.
  induction a as [|x a IH]; intros [|y b]; cbn; try reflexivity.
  rewrite (N.compare_antisym x y). destruct (x ?= y)%N; cbn; [apply IH|reflexivity|reflexivity].
Qed.

Definition tle (a b : text) : Prop := text_cmp a b <> Gt.

Lemma text_cmp_trans_lt : forall a b c, text_cmp a b = Lt -> text_cmp b c = Lt -> text_cmp a c = Lt.
Proof.
  induction a as [|x a IH]; intros [|y b] [|z c]; cbn; intros H1 H2; try congruence; try discriminate.
  destruct (N.compare_spec x y) as [E1|E1|E1]; try discriminate;
  destruct (N.compare_spec y z) as [E2|E2|E2]; try discriminate;
  destruct (N.compare_spec x z) as [E3|E3|E3]; try lia; try reflexivity.
  eapply IH; eassumption.
Qed.

Lemma tle_trans : forall a b c, tle a b -> tle b c -> tle a c.
Proof.
  unfold tle. intros a b c H1 H2.
  destruct (text_cmp a b) eqn:E1; [|destruct (text_cmp b c) eqn:E2|congruence].
  - apply text_cmp_eq in E1. subst. exact H2.
  - apply text_cmp_eq in E2. subst. rewrite E1. exact H1.
  - rewrite (text_cmp_trans_lt a b c) by assumption. discriminate.
  - congruence.
Qed.

Lemma tle_total : forall a b, tle a b \/ tle b a.
Proof.
  intros a b. unfold tle. rewrite (text_cmp_antisym a b).
  destruct (text_cmp a b); [left|left|right]; discriminate.
Qed.

Fixpoint tsorted (l : list text) : Prop :=
  match l with
  | [] => True
  | x :: r => (forall y, In y r -> tle x y) /\ tsorted r
  end.

Lemma insert_sorted_perm : forall x l, Permutation (x :: l) (insert_sorted x l).
Proof.
  induction l as [|y l IH]; cbn; [apply Permutation_refl|].
  destruct (text_cmp x y); try apply Permutation_refl.
  rewrite perm_swap. constructor. exact IH.
Qed.

Lemma sort_texts_perm : forall l, Permutation l (sort_texts l).
Proof.
  induction l as [|x l IH]; cbn; [constructor|].
  rewrite <- insert_sorted_perm. constructor. exact IH.
Qed.

Lemma insert_sorted_sorted : forall x l, tsorted l -> tsorted (insert_sorted x l).
Proof.
  induction l as [|y l IH]; intro H; cbn; [tauto|].
  destruct H as [H1 H2]. destruct (text_cmp x y) eqn:E.
  - cbn. split; [|tauto]. intros z [<-|Hz]; [unfold tle; congruence|].
    apply text_cmp_eq in E. subst. apply H1. exact Hz.
  - cbn. split; [|tauto]. intros z [<-|Hz]; [unfold tle; congruence|].
    apply (tle_trans _ y); [unfold tle; congruence|apply H1; exact Hz].
  - cbn. split; [|apply IH; exact H2].
    intros z Hz. apply (Permutation_in _ (Permutation_sym (insert_sorted_perm x l))) in Hz.
    destruct Hz as [<-|Hz]; [|apply H1; exact Hz].
    unfold tle. rewrite text_cmp_antisym, E. discriminate.
Qed.

Lemma sort_texts_sorted : forall l, tsorted (sort_texts l).
Proof. induction l as [|x l IH]; cbn; [exact I|]. apply insert_sorted_sorted. exact IH. Qed.

Lemma tsorted_nth : forall l i j a b, tsorted l -> i <= j ->
  nth_error l i = Some a -> nth_error l j = Some b -> tle a b.
Proof.
  induction l as [|x l IH]; intros i j a b Hs Hij Ha Hb; [destruct i; discriminate|].
  destruct Hs as [Hs1 Hs2]. destruct i as [|i].
  - cbn in Ha. inversion Ha; subst. destruct j as [|j].
    + cbn in Hb. inversion Hb; subst. unfold tle. rewrite text_cmp_refl. discriminate.
    + cbn in Hb. apply Hs1. eapply nth_error_In. exact Hb.
  - destruct j as [|j]; [lia|]. cbn in Ha, Hb. apply (IH i j); try assumption. lia.
Qed.

Lemma tsorted_monotone : forall l name, tsorted l ->
  monotone (fun probe => text_cmp probe name) l.
Proof.
  intros l name Hs i j a b Hij Ha Hb.
  pose proof (tsorted_nth _ _ _ _ _ Hs Hij Ha Hb) as Hab.
  destruct (text_cmp b name) eqn:Eb; cbn [rank]; [| |destruct (text_cmp a name); cbn; lia].
  - assert (tle a name) as Hle by (apply text_cmp_eq in Eb; subst; exact Hab).
    unfold tle in Hle. destruct (text_cmp a name); cbn; [lia|lia|congruence].
  - assert (text_cmp a name = Lt) as ->; [|cbn; lia].
    unfold tle in Hab. destruct (text_cmp a b) eqn:E; [| |congruence].
    + apply text_cmp_eq in E. subst. exact Eb.
    + eapply text_cmp_trans_lt; eassumption.
Qed.

Lemma contains_sorted : forall l name, tsorted l ->
  sorted_strings_contains l name = true <-> In name l.
Proof.
  intros l name Hs. unfold sorted_strings_contains.
  pose proof (binary_search_spec _ _ _ (tsorted_monotone l name Hs)) as H.
  destruct (binary_search_by _ l) as [i|i].
  - destruct H as [a [Ha E]]. apply text_cmp_eq in E. subst.
    split; [intros _; eapply nth_error_In; exact Ha|reflexivity].
  - destruct H as [_ [Hlo Hhi]]. split; [discriminate|]. intro Hin.
    apply In_nth_error in Hin. destruct Hin as [j Hj].
    destruct (Nat.lt_ge_cases j i) as [L|L].
    + specialize (Hlo _ _ L Hj). rewrite text_cmp_refl in Hlo. discriminate.
    + specialize (Hhi _ _ L Hj). rewrite text_cmp_refl in Hhi. discriminate.
Qed.

Lemma contains_new : forall names name,
  sorted_strings_contains (sorted_strings_new names) name = true <-> In name names.
Proof.
  intros. unfold sorted_strings_new. rewrite contains_sorted by apply sort_texts_sorted.
  split; intro H.
  - eapply Permutation_in; [apply Permutation_sym, sort_texts_perm|exact H].
  - eapply Permutation_in; [apply sort_texts_perm|exact H].
Qed.

Lemma contains_merge : forall a b name,
  sorted_strings_contains (table_merge (sorted_strings_new a) (sorted_strings_new b)) name = true
  <-> In name a \/ In name b.
Proof.
  intros. unfold table_merge. rewrite contains_new, in_app_iff. unfold sorted_strings_new.
  split; (intros [H|H]; [left|right]);
    (eapply Permutation_in; [|exact H]); try apply sort_texts_perm;
    apply Permutation_sym, sort_texts_perm.
Qed.

Lemma contains_order_irrelevant : forall a b name, (forall n, In n a <-> In n b) ->
  sorted_strings_contains (sorted_strings_new a) name
  = sorted_strings_contains (sorted_strings_new b) name.
Proof.
  intros a b name H.
  destruct (sorted_strings_contains (sorted_strings_new a) name) eqn:Ea.
  - symmetry. apply contains_new. apply H. apply contains_new. exact Ea.
  - destruct (sorted_strings_contains (sorted_strings_new b) name) eqn:Eb; [|reflexivity].
    apply contains_new in Eb. apply H in Eb. apply contains_new in Eb. congruence.
Qed.

(* configuration *)
Lemma existsb_crlf_infer : forall source,
  (if existsb (fun e => match e with Crlf => true | Lf => false end) (line_endings source)
   then Crlf else Lf) = infer source.
Proof.
  intro source. destruct (existsb _ (line_endings source)) eqn:E.
  - apply existsb_exists in E. destruct E as [[|] [Hin He]]; [discriminate|].
    symmetry. apply infer_In. exact Hin.
  - destruct (infer source) eqn:Ei; [reflexivity|]. apply infer_In in Ei.
    assert (existsb (fun e => match e with Crlf => true | Lf => false end) (line_endings source) = true) as Ht.
    { apply existsb_exists. exists Crlf. auto. }
    congruence.
Qed.

Lemma into_settings_inv : forall ok format s, into_settings ok format = Some s ->
  let t := unwrap_or format toml_options_default in
  s_indent_style s = unwrap_or (t_indent_style t) ISpace /\
  s_indent_width s = unwrap_or (t_indent_width t) 2%N /\
  s_line_ending s = unwrap_or (t_line_ending t) SAuto /\
  s_line_width s = unwrap_or (t_line_width t) 80%N /\
  s_persistent_line_breaks s =
    (match t_persistent_line_breaks t with Some false => PIgnore | _ => PRespect end) /\
  s_assignment_style s = unwrap_or (t_assignment_style t) AArrow /\
  s_skip s = t_skip t /\
  s_default_exclude s = unwrap_or (t_default_exclude t) true /\
  s_exclude s = t_exclude t /\
  s_table s = (if unwrap_or (t_default_table t) true
    then Some (match t_table t with
               | Some table => table_merge table DEFAULT_TABLE
               | None => DEFAULT_TABLE
               end)
    else t_table t).
Proof.
  intros ok format s H. unfold into_settings in H. cbn zeta in H.
  set (t := unwrap_or format toml_options_default) in *. cbn zeta.
  destruct (t_exclude t) as [ex|].
  - destruct (ok ex); [|discriminate]. inversion H; subst; cbn.
    repeat split; try reflexivity; destruct (t_persistent_line_breaks t) as [[|]|]; reflexivity.
  - inversion H; subst; cbn.
    repeat split; try reflexivity; destruct (t_persistent_line_breaks t) as [[|]|]; reflexivity.
Qed.

Lemma toml_effective : forall windows ok format s source d k,
  into_settings ok format = Some s ->
  effective (workspace_to_format_options windows (WToml s) source d) k
  = first_layer [toml_layer windows source (unwrap_or format toml_options_default)] k
      (doc_default source k).
Proof.
  intros windows ok format s source d k H.
  apply into_settings_inv in H. cbn zeta in H.
  set (t := unwrap_or format toml_options_default) in *.
  destruct H as [H1 [H2 [H3 [H4 [H5 [H6 _]]]]]].
  destruct k; cbn [effective workspace_to_format_options to_format_options first_layer toml_layer
    doc_default o_line_width o_indent_width o_indent_style o_line_ending
    o_persistent_line_breaks o_assignment_style].
  - rewrite H4. destruct (t_line_width t); reflexivity.
  - rewrite H2. destruct (t_indent_width t); reflexivity.
  - rewrite H1. destruct (t_indent_style t); reflexivity.
  - rewrite H3, existsb_crlf_infer. destruct (t_line_ending t) as [[| | |]|]; reflexivity.
  - rewrite H5. destruct (t_persistent_line_breaks t) as [[|]|]; reflexivity.
  - rewrite H6. destruct (t_assignment_style t); reflexivity.
Qed.

Lemma fallback_effective : forall windows source d k,
  effective (workspace_to_format_options windows (WFallback format_settings_default) source d) k
  = first_layer [editor_layer d] k (doc_default source k).
Proof.
  intros windows source d k.
  destruct k; cbn [effective workspace_to_format_options to_format_options first_layer editor_layer
    doc_default o_line_width o_indent_width o_indent_style o_line_ending merge_document_settings
    o_persistent_line_breaks o_assignment_style].
  - destruct (d_line_width d); reflexivity.
  - destruct (d_indent_width d); reflexivity.
  - destruct (d_indent_style d); reflexivity.
  - rewrite existsb_crlf_infer. reflexivity.
  - reflexivity.
  - reflexivity.
Qed.

Lemma toml_editor_irrelevant : forall windows s source d1 d2,
  workspace_to_format_options windows (WToml s) source d1
  = workspace_to_format_options windows (WToml s) source d2.
Proof. reflexivity. Qed.

Lemma toml_names : forall windows ok format s source d skip table name,
  into_settings ok format = Some s ->
  from_user_lists (unwrap_or format toml_options_default) skip table ->
  let o := workspace_to_format_options windows (WToml s) source d in
  (skips o name = true <-> listed skip name) /\
  (tables o name = true <->
     listed table name \/
     (t_default_table (unwrap_or format toml_options_default) <> Some false /\
      In name [$"tribble"; $"fcase"])).
Proof.
  intros windows ok format s source d skip table name H [Hs Ht].
  apply into_settings_inv in H. cbn zeta in H.
  set (t := unwrap_or format toml_options_default) in *.
  destruct H as [_ [_ [_ [_ [_ [_ [Hsk [_ [_ Htb]]]]]]]]].
  cbn zeta. unfold skips, tables.
  cbn [workspace_to_format_options to_format_options o_skip o_table].
  rewrite Hsk, Htb, Hs, Ht. split.
  - destruct skip as [l|]; cbn [option_map listed].
    + apply contains_new.
    + split; [discriminate|tauto].
  - destruct (t_default_table t) as [[|]|]; cbn [unwrap_or].
    + destruct table as [l|]; cbn [option_map listed].
      * unfold DEFAULT_TABLE. rewrite contains_merge. split; (intros [?|?]; [tauto|]).
        -- right. split; [discriminate|assumption].
        -- right. tauto.
      * unfold DEFAULT_TABLE. rewrite contains_new. split.
        -- intro H. right. split; [discriminate|exact H].
        -- tauto.
    + destruct table as [l|]; cbn [option_map listed].
      * rewrite contains_new. split; [tauto|]. intros [?|[H _]]; [assumption|congruence].
      * split; [discriminate|]. intros [[]|[H _]]. congruence.
    + destruct table as [l|]; cbn [option_map listed].
      * unfold DEFAULT_TABLE. rewrite contains_merge. split; (intros [?|?]; [tauto|]).
        -- right. split; [discriminate|assumption].
        -- right. tauto.
      * unfold DEFAULT_TABLE. rewrite contains_new. split.
        -- intro H. right. split; [discriminate|exact H].
        -- tauto.
Qed.

Lemma fallback_names : forall windows source d name,
  let o := workspace_to_format_options windows (WFallback format_settings_default) source d in
  skips o name = false /\ (tables o name = true <-> In name [$"tribble"; $"fcase"]).
Proof.
  intros windows source d name. cbn zeta. split; [reflexivity|].
  unfold tables. cbn [workspace_to_format_options merge_document_settings to_format_options o_table
    format_settings_default s_table]. unfold DEFAULT_TABLE. apply contains_new.
Qed.

Lemma into_settings_fails_iff : forall ok format,
  into_settings ok format = None <->
  exists ex, t_exclude (unwrap_or format toml_options_default) = Some ex /\ ok ex = false.
Proof.
  intros ok format. unfold into_settings. cbn zeta.
  destruct (t_exclude (unwrap_or format toml_options_default)) as [ex|].
  - destruct (ok ex) eqn:E; split; intro H; try discriminate.
    + destruct H as [ex' [H1 H2]]. inversion H1; subst. congruence.
    + exists ex. auto.
    + reflexivity.
  - split; [discriminate|]. intros [ex [H _]]. discriminate.
Qed.

Lemma vsc_all_or_nothing : forall v,
  let d := document_settings_from_vsc v in
  (d_indent_style d <> None <-> d_indent_width d <> None) /\
  (d_indent_style d <> None <->
     v_insert_spaces v <> None /\ v_indent_size v <> None /\ v_tab_size v <> None) /\
  d_line_width d = None /\
  (forall w, d_indent_width d = Some w -> (1 <= w <= 24)%N).
Proof.
  intro v. cbn zeta. unfold document_settings_from_vsc.
  destruct (v_insert_spaces v) as [sp|]; destruct (v_indent_size v) as [sz|];
    destruct (v_tab_size v) as [tab|]; cbn;
    repeat split; intros; try congruence; try tauto; try discriminate.
  all: inversion H; subst; clear H.
  all: destruct sz as [a|n]; cbn; try (destruct (text_eqb a _)); cbn;
       rewrite ?vsc_width_iff;
       try (unfold indent_width_default; lia).
  all: match goal with |- context [((1 <=? ?x) && (?x <=? 24))%Z%bool] =>
         destruct ((1 <=? x) && (x <=? 24))%Z%bool eqn:E end; [|lia];
       apply andb_true_iff in E; destruct E as [E1 E2];
       apply Z.leb_le in E1; apply Z.leb_le in E2; lia.
Qed.

Lemma toml_selection : forall ok format s, into_settings ok format = Some s ->
  let t := unwrap_or format toml_options_default in
  s_exclude s = t_exclude t /\
  (s_default_exclude s = false <-> t_default_exclude t = Some false) /\
  s_default_include s = true.
Proof.
  intros ok format s H. cbn zeta. unfold into_settings in H. cbn zeta in H.
  set (t := unwrap_or format toml_options_default) in *.
  assert (Hd : (unwrap_or (t_default_exclude t) true = false) <-> (t_default_exclude t = Some false)).
  { destruct (t_default_exclude t) as [[|]|]; cbn; split; congruence. }
  destruct (t_exclude t) as [ex|].
  - destruct (ok ex); [|discriminate]. inversion H; subst; cbn. auto.
  - inversion H; subst; cbn. auto.
Qed.

Lemma fallback_selection :
  s_exclude format_settings_default = None /\
  s_default_exclude format_settings_default = true /\
  s_default_include format_settings_default = true.
Proof. repeat split. Qed.
