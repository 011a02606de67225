(** Proofs for FactoryProps.v. *)
From Coq Require Import List NArith Bool Arith Lia.
From Verif Require Import Text TextFacts SyntaxKind ParseModel ParseSpec ParseProofs ParseTree
  FmtTree FmtSpec FmtTableSpec CommentsModel CommentsSpec AstModel AstReads AstProofs FrontProofs
  TotalSpec FactoryModel FactorySpec.
Import ListNotations.

(** * From tree-sitter's tree to the shape of the syntax tree *)

Fixpoint skel_shape (x : shape) : skel :=
  match x with SNode k cs => KNode k (map skel_shape cs) | STok k _ _ => KTok k end.
Definition shape_kind (x : shape) : kind := skel_kind (skel_shape x).
Definition whole (x : shape) : Prop := complete (skel_shape x) = true.

Lemma one_of_true l k : one_of l k = true <-> In k l.
Proof.
  unfold one_of. rewrite existsb_exists. split.
  - intros [x [H E]]. apply kind_eqb_eq in E. subst. exact H.
  - intro H. exists k. split; [exact H|apply kind_eqb_refl].
Qed.

Lemma whole_node k r l : ungram k = Some r -> obeys r (map shape_kind l) = true ->
  Forall whole l -> whole (SNode k l).
Proof.
  intros U O F. unfold whole. cbn [skel_shape complete]. rewrite U, map_map.
  unfold shape_kind in O. rewrite O. cbn [andb]. apply forallb_forall. intros x H.
  apply in_map_iff in H as [y [<- H]]. exact (proj1 (Forall_forall _ _) F y H).
Qed.

Ltac by_rule := eapply whole_node; [reflexivity| |].

(** What a child other than a comment becomes. *)
Definition becomes (c : ts) (x : shape) : Prop :=
  shapes c = [x] /\ shape_kind x = ts_kind c /\ whole x.
Definition good (c : ts) : Prop :=
  gram c = true -> conforms c = true -> ts_kind c <> COMMENT -> exists x, becomes c x.

Lemma core_cons c cs :
  core (c :: cs) = if kind_eqb (ts_kind c) COMMENT then core cs else c :: core cs.
Proof. unfold core. cbn [filter]. destruct (kind_eqb (ts_kind c) COMMENT); reflexivity. Qed.

Definition made (cs : list ts) : Prop := Forall (fun c => ts_kind c <> COMMENT /\ exists x, becomes c x) cs.

Lemma core_made cs : Forall good cs -> forallb gram cs = true -> forallb conforms cs = true ->
  made (core cs).
Proof.
  induction 1 as [|c cs H F IH]; intros G C; [constructor|].
  cbn [forallb] in G, C. apply andb_prop in G as [G1 G2]. apply andb_prop in C as [C1 C2].
  rewrite core_cons. destruct (kind_eqb (ts_kind c) COMMENT) eqn:K; [auto|].
  apply kind_eqb_neq in K. constructor; [|apply IH; assumption]. split; [exact K|]. apply H; assumption.
Qed.

Lemma items_cons c cs : items (c :: cs) = (c, shapes c) :: items cs.
Proof. reflexivity. Qed.
Lemma became_core cs : became (items cs) = became (items (core cs)).
Proof.
  induction cs as [|c cs IH]; [reflexivity|]. rewrite core_cons, items_cons, became_cons, IH.
  destruct (kind_eqb (ts_kind c) COMMENT) eqn:K; [|reflexivity].
  apply kind_eqb_eq in K. cbn [snd]. rewrite (comment_shapes c K). reflexivity.
Qed.
Lemma made_kinds cs : made cs ->
  map shape_kind (became (items cs)) = map ts_kind cs /\ Forall whole (became (items cs)).
Proof.
  induction 1 as [|c cs [_ [x [S [K W]]]] F [IH1 IH2]]; [split; [reflexivity|constructor]|].
  rewrite items_cons, became_cons. cbn [snd]. rewrite S. cbn [app map]. rewrite K, IH1.
  split; [reflexivity|]. constructor; assumption.
Qed.

Lemma wrap_from_core k node cs : k <> COMMENT ->
  wrap_from k node (items cs) = wrap_from k node (items (core cs)).
Proof.
  intro N. induction cs as [|c cs IH]; [reflexivity|].
  rewrite core_cons. destruct (kind_eqb (ts_kind c) COMMENT) eqn:K.
  - rewrite items_cons. cbn [wrap_from]. unfold item_kind. cbn [fst snd].
    apply kind_eqb_eq in K. rewrite K.
    replace (kind_eqb COMMENT k) with false
      by (symmetry; apply kind_eqb_neq; congruence).
    rewrite (comment_shapes c K). exact IH.
  - rewrite !items_cons. cbn [wrap_from]. unfold item_kind. cbn [fst snd].
    destruct (kind_eqb (ts_kind c) k); [|rewrite IH; reflexivity].
    rewrite !became_cons, became_core. reflexivity.
Qed.
Lemma comment_no_name c : ts_kind c = COMMENT -> is_name c = false.
Proof. intro K. unfold is_name. rewrite K. reflexivity. Qed.
Lemma name_clause_core cs : name_clause (items cs) = name_clause (items (core cs)).
Proof.
  induction cs as [|c cs IH]; [reflexivity|].
  rewrite core_cons. destruct (kind_eqb (ts_kind c) COMMENT) eqn:K.
  - rewrite items_cons. cbn [name_clause]. unfold item_kind. cbn [fst snd].
    apply kind_eqb_eq in K. rewrite K, (comment_shapes c K).
    change (kind_eqb COMMENT EQUAL) with false. cbn iota. rewrite IH.
    destruct (name_clause (items (core cs))). reflexivity.
  - rewrite !items_cons. cbn [name_clause]. unfold item_kind. cbn [fst snd].
    destruct (kind_eqb (ts_kind c) EQUAL); [rewrite became_core; reflexivity|].
    rewrite IH. reflexivity.
Qed.
Lemma argument_children_core cs :
  argument_children (items cs) = argument_children (items (core cs)).
Proof.
  induction cs as [|c cs IH]; [reflexivity|].
  rewrite core_cons. destruct (kind_eqb (ts_kind c) COMMENT) eqn:K.
  - rewrite items_cons. cbn [argument_children fst snd]. apply kind_eqb_eq in K.
    rewrite (comment_no_name c K), (comment_shapes c K). exact IH.
  - rewrite !items_cons. cbn [argument_children fst snd].
    destruct (is_name c); [|rewrite IH; reflexivity].
    pose proof (name_clause_core (c :: cs)) as E. rewrite core_cons, K, !items_cons in E.
    rewrite E. reflexivity.
Qed.

(** The children between delimiters. *)
Lemma closed_core close p m : forall c, closed_by close p (m ++ [c]) = true ->
  core (m ++ [c]) = core m ++ core [c].
Proof. intros c _. unfold core. apply filter_app. Qed.
Lemma delimited_core open close p cs : open <> COMMENT -> close <> COMMENT ->
  delimited open close p cs = true ->
  exists o m c, cs = o :: m ++ [c] /\ ts_kind o = open /\ ts_kind c = close /\
    core cs = o :: core m ++ [c] /\ Forall (fun c => p (ts_kind c) = true) m.
Proof.
  intros No Nc D. destruct cs as [|o r]; [discriminate|]. cbn [delimited] in D.
  apply andb_prop in D as [Ko D]. apply kind_eqb_eq in Ko.
  pose proof (closed_all _ _ _ D) as A.
  destruct r as [|c m _] using rev_ind; [discriminate|].
  rewrite removelast_last in A.
  assert (Kc : ts_kind c = close).
  { clear A. induction m as [|d m IH]; [apply kind_eqb_eq; exact D|].
    change ((d :: m) ++ [c]) with (d :: (m ++ [c])) in D. cbn [closed_by] in D.
    destruct (m ++ [c]) eqn:E; [destruct m; discriminate|]. rewrite <- E in D.
    apply andb_prop in D as [_ D]. rewrite E in D. auto. }
  exists o, m, c. repeat split; auto.
  rewrite core_cons, Ko. replace (kind_eqb open COMMENT) with false
    by (symmetry; apply kind_eqb_neq; exact No).
  f_equal. unfold core. rewrite filter_app. f_equal. cbn [filter]. rewrite Kc.
  replace (kind_eqb close COMMENT) with false by (symmetry; apply kind_eqb_neq; exact Nc).
  reflexivity.
Qed.
Lemma wrap_inside_eq node inner o m c :
  wrap_inside node inner (items (o :: m ++ [c]))
  = shapes o ++ SNode node (inner (items m)) :: shapes c.
Proof.
  unfold items. rewrite map_cons, map_app. cbn [map wrap_inside snd].
  rewrite removelast_last, app_length. cbn [List.length].
  replace (List.length (map (fun c0 => (c0, shapes c0)) m) + 1 - 1)
    with (List.length (map (fun c0 => (c0, shapes c0)) m)) by lia.
  rewrite skipn_app, skipn_all, Nat.sub_diag. cbn. rewrite app_nil_r. reflexivity.
Qed.

Lemma each_fill ps : forall ks, each ps ks = true -> fill (map Must ps) ks = true.
Proof.
  induction ps as [|p ps IH]; intros [|k ks] H; try discriminate H; [reflexivity|].
  cbn [each] in H. apply andb_prop in H as [A B]. cbn [map fill]. rewrite A. apply IH, B.
Qed.

(** * Arguments *)
Lemma in_slots (P : shape -> Prop) l : forall ss last, slots l = (ss, last) ->
  (forall x, In x (became l) -> P x) ->
  Forall (fun s : list item * list shape => Forall P (became (fst s)) /\ Forall P (snd s)) ss /\
  Forall P (became last).
Proof.
  induction l as [|i l IH]; intros ss last H A; cbn [slots] in H.
  - injection H as <- <-. split; constructor.
  - destruct (slots l) as [ss0 last0]. rewrite became_cons in A.
    destruct (IH _ _ eq_refl) as [B C]; [intros x I; apply A, in_or_app; auto|].
    assert (D : Forall P (snd i)) by (apply Forall_forall; intros x I; apply A, in_or_app; auto).
    destruct (kind_eqb (item_kind i) COMMA).
    + injection H as <- <-. split; [|exact C]. constructor; [|exact B]. split; [constructor|exact D].
    + destruct ss0 as [|[s c] ss0]; injection H as <- <-.
      * split; [constructor|]. rewrite became_cons. apply Forall_app; auto.
      * inversion B as [|? ? [B1 B2] B3]; subst. cbn [fst snd] in *. split; [|exact C].
        constructor; [|exact B3]. cbn [fst snd]. rewrite became_cons. split; [|exact B2].
        apply Forall_app; auto.
Qed.
Lemma slot_shape_all (P : shape -> Prop) s : P (SNode R_ARGUMENT []) -> Forall P (became s) ->
  Forall P (slot_shape s).
Proof.
  intros H F. unfold slot_shape. destruct (existsb _ s); [exact F|]. constructor; [exact H|constructor].
Qed.
Lemma argument_list_all (P : shape -> Prop) l : P (SNode R_ARGUMENT []) ->
  Forall P (became l) -> Forall P (argument_list l).
Proof.
  intros H F. unfold argument_list. destruct (slots l) as [ss last] eqn:E.
  destruct (in_slots P l _ _ E) as [A B]; [apply Forall_forall; exact F|].
  destruct ss as [|s0 ss]; [exact B|]. apply Forall_app. split; [|apply slot_shape_all; assumption].
  clear E. revert A. generalize (s0 :: ss). intros l0 A.
  induction A as [|s l0 [A1 A2] _ IH]; [constructor|]. cbn [flat_map].
  apply Forall_app. split; [|exact IH]. apply Forall_app. split; [|exact A2].
  apply slot_shape_all; assumption.
Qed.
Lemma alternating_parted l : alternating l -> parted [R_ARGUMENT] COMMA (map shape_kind l) = true.
Proof.
  induction 1 as [cs|cs s e r A IH]; [reflexivity|]. cbn. exact IH.
Qed.

Lemma conforms_unfold k f s e cs : conforms (TS k f s e cs) = true -> opaque k = false ->
  children_ok k (map ts_kind (core cs)) = true /\ forallb conforms cs = true /\
  (one_of [R_CALL; R_SUBSET; R_SUBSET2] k = true ->
   forallb (fun c => Bool.eqb (is_arguments c) (kind_eqb (ts_kind c) R_UNMAPPED)) cs = true).
Proof.
  intros C O. cbn [conforms] in C. rewrite O in C. cbn [orb] in C.
  apply andb_prop in C as [C D]. apply andb_prop in C as [A B]. split; [exact A|].
  split; [exact B|]. intro H. rewrite H in D. exact D.
Qed.

Lemma argument_content c : conforms c = true -> ts_kind c = R_ARGUMENT -> has_content c = true.
Proof.
  destruct c as [k f s e cs]. cbn [ts_kind]. intros C ->.
  destruct (conforms_unfold _ _ _ _ _ C eq_refl) as [A _]. unfold has_content. cbn [ts_children].
  clear C. induction cs as [|c cs IH]; [discriminate A|]. cbn [existsb]. rewrite core_cons in A.
  destruct (kind_eqb (ts_kind c) COMMENT); [|reflexivity]. exact (IH A).
Qed.

Lemma arguments_whole m : Forall good m -> forallb gram m = true -> forallb conforms m = true ->
  Forall (fun c => arguments_item (ts_kind c) = true) m -> slots_ok false m = true ->
  whole (SNode R_ARGUMENT_LIST (argument_list (items m))).
Proof.
  intros F G C A S.
  assert (W : Forall whole (argument_list (items m))).
  { apply argument_list_all; [reflexivity|]. rewrite became_core.
    apply made_kinds, core_made; assumption. }
  assert (I : argument_items m).
  { split; [|exact S]. apply Forall_forall. intros c H.
    pose proof (proj1 (Forall_forall _ _) A c H). rewrite forallb_forall in G, C.
    repeat split; auto. intro K. apply argument_content; auto. }
  destruct (argument_list_spec m (argument_items_slots m I) S) as [E1 [E2 _]].
  by_rule; [|exact W]. cbn [obeys].
  destruct (Nat.eq_dec (count_kind COMMA m) 0) as [Z|Z].
  - destruct (E1 Z) as [E L]. rewrite E in *.
    assert (K : Forall (fun x => shape_kind x = R_ARGUMENT)
                  (flat_map shapes (filter (fun c => kind_eqb (ts_kind c) R_ARGUMENT) m))).
    { clear E E1 E2 L W Z S I. induction F as [|c m H F IH]; [constructor|].
      cbn [forallb] in G, C. apply andb_prop in G as [G1 G2]. apply andb_prop in C as [C1 C2].
      inversion A; subst. cbn [filter]. destruct (kind_eqb (ts_kind c) R_ARGUMENT) eqn:K; [|auto].
      cbn [flat_map]. apply Forall_app. split; [|auto]. apply kind_eqb_eq in K.
      destruct (H G1 C1) as [x [X [Y _]]]; [congruence|]. rewrite X. constructor; [congruence|constructor]. }
    destruct (flat_map shapes _) as [|x [|y r]]; [reflexivity| |cbn in L; lia].
    inversion K as [|? ? Kx _]; subst. cbn [map]. rewrite Kx. reflexivity.
  - destruct (E2 Z) as [Alt _]. pose proof (alternating_parted _ Alt) as P.
    destruct (map shape_kind (argument_list (items m))); [reflexivity|exact P].
Qed.

Ltac no_match C := cbn [map each] in C; rewrite ?andb_false_r in C; discriminate C.

(** A named argument. *)
Lemma argument_whole cs : made (core cs) -> argument_ok cs = true ->
  children_ok R_ARGUMENT (map ts_kind (core cs)) = true ->
  whole (SNode R_ARGUMENT (argument_children (items cs))).
Proof.
  intros M A C. rewrite argument_children_core.
  assert (A' : argument_ok (core cs) = true).
  { clear M C. assert (N : forall cs, named (core cs) = named cs).
    { clear. induction cs as [|c cs IH]; [reflexivity|]. rewrite core_cons. unfold named in *.
      cbn [existsb]. destruct (kind_eqb (ts_kind c) COMMENT) eqn:K; cbn [existsb]; rewrite IH; [|reflexivity].
      apply kind_eqb_eq in K. rewrite K. reflexivity. }
    assert (SP : forall cs, skip_plain (core cs) = core (skip_plain cs)).
    { clear. induction cs as [|c cs IH]; [reflexivity|]. rewrite core_cons. cbn [skip_plain].
      destruct (kind_eqb (ts_kind c) COMMENT) eqn:K.
      - apply kind_eqb_eq in K. unfold plain_item. rewrite (comment_no_name c K), K. cbn. exact IH.
      - cbn [skip_plain]. destruct (plain_item c); [exact IH|]. rewrite core_cons, K. reflexivity. }
    assert (H : forall cs c r, skip_plain cs = c :: r -> kind_eqb (ts_kind c) COMMENT = false).
    { clear. induction cs as [|d cs IH]; intros c r E; [discriminate|]. cbn [skip_plain] in E.
      destruct (plain_item d) eqn:P; [eauto|]. injection E as <- <-.
      apply kind_eqb_neq. intro K. unfold plain_item in P. rewrite (comment_no_name d K), K in P.
      discriminate. }
    unfold argument_ok in *. rewrite N. destruct (named cs).
    - rewrite SP. destruct (skip_plain cs) as [|nm r] eqn:E; [discriminate|].
      rewrite core_cons, (H _ _ _ E). apply andb_prop in A as [A1 A2]. rewrite A1, SP.
      destruct (skip_plain r) as [|q post] eqn:E'; [discriminate|].
      rewrite core_cons, (H _ _ _ E'). apply andb_prop in A2 as [A2 A3]. rewrite A2.
      cbn [andb]. rewrite forallb_forall in *. intros x I. apply A3.
      apply filter_In in I. apply I.
    - rewrite forallb_forall in *. intros x I. apply A. apply filter_In in I. apply I. }
  clear A. revert M A' C. generalize (core cs). clear cs. intros cs M A C.
  cbn [children_ok existsb] in C. rewrite orb_false_r in C.
  apply orb_true_iff in C as [C|C]; [|apply orb_true_iff in C as [C|C]].
  - destruct cs as [|v [|]]; try solve [no_match C].
    cbn [map each] in C. rewrite andb_true_r in C.
    inversion M as [|? ? [_ [x [S [K W]]]] _]; subst.
    assert (Q : kind_eqb (ts_kind v) EQUAL = false).
    { destruct (ts_kind v); try reflexivity. discriminate C. }
    unfold argument_ok, named in A. cbn [existsb] in A. rewrite Q in A. cbn in A.
    unfold plain_item in A. rewrite Q in A. cbn in A.
    rewrite items_cons. cbn [argument_children fst snd]. destruct (is_name v); [discriminate A|].
    rewrite S. by_rule.
    + cbn [app map obeys]. rewrite K. cbn [fill]. rewrite C.
      destruct (ts_kind v); try reflexivity; discriminate C.
    + constructor; [exact W|constructor].
  - destruct cs as [|nm [|q [|]]]; try solve [no_match C].
    cbn [map each] in C. rewrite andb_true_r in C. apply andb_prop in C as [Cn Cq].
    assert (Kq : ts_kind q = EQUAL).
    { apply one_of_true in Cq. destruct Cq as [Cq|[]]. auto. }
    inversion M as [|? ? [_ [x [S [K W]]]] M']; subst.
    inversion M' as [|? ? [_ [y [Sq [Kq' Wq]]]] _]; subst.
    assert (Q : kind_eqb (ts_kind nm) EQUAL = false).
    { destruct (ts_kind nm); try reflexivity. discriminate Cn. }
    unfold argument_ok, named in A. cbn [existsb] in A. rewrite Q, Kq in A.
    change (kind_eqb EQUAL EQUAL) with true in A. cbn [orb] in A. cbn [skip_plain] in A.
    unfold plain_item in A. rewrite Q, Kq in A. cbn [negb andb] in A.
    change (kind_eqb EQUAL EQUAL) with true in A. cbn [negb andb] in A.
    rewrite !items_cons. cbn [argument_children fst snd].
    destruct (is_name nm) eqn:N; [|cbn in A; rewrite Kq in A; discriminate A].
    cbn [name_clause]. unfold item_kind. cbn [fst snd]. rewrite Q, Kq.
    change (kind_eqb EQUAL EQUAL) with true. cbn iota. rewrite S, Sq.
    by_rule; [reflexivity|]. constructor; [|constructor].
    by_rule.
    + cbn [app map obeys]. rewrite K, Kq', Kq. cbn [fill]. rewrite Cn. reflexivity.
    + repeat (constructor; [assumption|]). constructor.
  - destruct cs as [|nm [|q [|v [|]]]]; try solve [no_match C].
    cbn [map each] in C. rewrite andb_true_r in C. apply andb_prop in C as [Cn Cq].
    apply andb_prop in Cq as [Cq Cv].
    assert (Kq : ts_kind q = EQUAL).
    { apply one_of_true in Cq. destruct Cq as [Cq|[]]. auto. }
    inversion M as [|? ? [_ [x [S [K W]]]] M']; subst.
    inversion M' as [|? ? [_ [y [Sq [Kq' Wq]]]] M'']; subst.
    inversion M'' as [|? ? [_ [z [Sv [Kv Wv]]]] _]; subst.
    assert (Q : kind_eqb (ts_kind nm) EQUAL = false).
    { destruct (ts_kind nm); try reflexivity. discriminate Cn. }
    unfold argument_ok, named in A. cbn [existsb] in A. rewrite Q, Kq in A.
    change (kind_eqb EQUAL EQUAL) with true in A. cbn [orb] in A. cbn [skip_plain] in A.
    unfold plain_item in A. rewrite Q, Kq in A. cbn [negb andb] in A.
    change (kind_eqb EQUAL EQUAL) with true in A. cbn [negb andb] in A.
    rewrite !items_cons. cbn [argument_children fst snd].
    destruct (is_name nm) eqn:N; [|cbn in A; rewrite Kq in A; discriminate A].
    cbn [name_clause]. unfold item_kind. cbn [fst snd]. rewrite Q, Kq.
    change (kind_eqb EQUAL EQUAL) with true. cbn iota. rewrite became_cons. cbn [snd].
    rewrite S, Sq, Sv. cbn [items map became flat_map app].
    by_rule.
    + cbn [map obeys]. rewrite Kv. cbn [fill].
      change (one_of [R_ARGUMENT_NAME_CLAUSE] (shape_kind (SNode R_ARGUMENT_NAME_CLAUSE [x; y]))) with true.
      cbn iota. rewrite Cv. reflexivity.
    + constructor; [|constructor; [exact Wv|constructor]].
      by_rule.
      * cbn [app map obeys]. rewrite K, Kq', Kq. cbn [fill]. rewrite Cn. reflexivity.
      * repeat (constructor; [assumption|]). constructor.
Qed.

(** * All trees *)

Lemma call_core ak cs :
  forallb (fun c => Bool.eqb (is_arguments c) (kind_eqb (ts_kind c) R_UNMAPPED)) cs = true ->
  flat_map (call_child ak) cs = flat_map (call_child ak) (core cs).
Proof.
  induction cs as [|c cs IH]; intro H; [reflexivity|]. cbn [forallb] in H.
  apply andb_prop in H as [H1 H2]. rewrite core_cons.
  destruct (kind_eqb (ts_kind c) COMMENT) eqn:K; cbn [flat_map]; rewrite (IH H2); [|reflexivity].
  apply kind_eqb_eq in K. pose proof (comment_shapes c K) as S. destruct c as [k f s e l].
  cbn [ts_kind] in K. subst k. destruct f; try (cbn [call_child]; rewrite S; reflexivity).
  discriminate H1.
Qed.

Lemma call_whole k ak f s e cs : class_of k = C_call ak ->
  Forall (fun c => good c /\ Forall good (ts_children c)) cs ->
  gram (TS k f s e cs) = true -> conforms (TS k f s e cs) = true ->
  exists x, becomes (TS k f s e cs) x.
Proof.
  intros CL F G C.
  assert (K : k = R_CALL /\ ak = R_CALL_ARGUMENTS \/ k = R_SUBSET /\ ak = R_SUBSET_ARGUMENTS \/
              k = R_SUBSET2 /\ ak = R_SUBSET2_ARGUMENTS)
    by (destruct k; try discriminate CL; injection CL as <-; auto).
  destruct (conforms_unfold _ _ _ _ _ C) as [A [B D]]; [destruct k; try discriminate CL; reflexivity|].
  assert (A' : each [expressions; [R_UNMAPPED]] (map ts_kind (core cs)) = true).
  { destruct K as [[-> _]|[[-> _]|[-> _]]]; exact A. }
  assert (D' : forallb (fun c => Bool.eqb (is_arguments c) (kind_eqb (ts_kind c) R_UNMAPPED)) cs = true).
  { apply D. destruct K as [[-> _]|[[-> _]|[-> _]]]; reflexivity. }
  clear A D.
  assert (CO : exists fn a, core cs = [fn; a] /\ In fn cs /\ In a cs /\
               one_of expressions (ts_kind fn) = true /\ ts_kind a = R_UNMAPPED).
  { assert (I : forall x, In x (core cs) -> In x cs) by (intros x H; apply filter_In in H; apply H).
    destruct (core cs) as [|fn [|a [|]]]; try solve [no_match A'].
    cbn [map each] in A'. rewrite andb_true_r in A'. apply andb_prop in A' as [A1 A2].
    exists fn, a. split; [reflexivity|]. split; [apply I; left; reflexivity|].
    split; [apply I; right; left; reflexivity|]. split; [exact A1|].
    apply one_of_true in A2. destruct A2 as [A2|[]]. auto. }
  destruct CO as [fn [a [CE [If [Ia [Kf Ka]]]]]].
  assert (E : shapes (TS k f s e cs) = [SNode k (flat_map (call_child ak) cs)]).
  { cbn [shapes]. rewrite CL. reflexivity. }
  rewrite (call_core _ _ D'), CE in E. cbn [flat_map] in E. rewrite app_nil_r in E.
  cbn [gram] in G. rewrite CL in G. rewrite forallb_forall in G, B, D'.
  pose proof (proj1 (Forall_forall _ _) F fn If) as [Gf _].
  pose proof (proj1 (Forall_forall _ _) F a Ia) as [_ Ga].
  pose proof (G fn If) as G1. pose proof (G a Ia) as G2.
  pose proof (D' fn If) as D1. pose proof (D' a Ia) as D2.
  pose proof (B fn If) as B1. pose proof (B a Ia) as B2.
  assert (Nf : kind_eqb (ts_kind fn) R_UNMAPPED = false).
  { destruct (ts_kind fn); try reflexivity. discriminate Kf. }
  rewrite Nf in D1. rewrite Ka in D2. change (kind_eqb R_UNMAPPED R_UNMAPPED) with true in D2.
  assert (Gx : gram fn = true /\ call_child ak fn = shapes fn).
  { destruct fn as [k1 f1 s1 e1 c1]. destruct f1; try discriminate D1; split; try exact G1; reflexivity. }
  destruct Gx as [Gx Cx]. rewrite Cx in E.
  destruct (Gf Gx B1) as [x [Sx [Kx Wx]]].
  { intro H. rewrite H in Kf. discriminate Kf. }
  rewrite Sx in E.
  destruct a as [k2 f2 s2 e2 c2]. cbn [ts_kind] in Ka. subst k2.
  destruct f2; try discriminate D2.
  rewrite !andb_true_iff in G2. destruct G2 as [[[DL SL] GL] _].
  destruct (conforms_unfold _ _ _ _ _ B2 eq_refl) as [_ [CL2 _]].
  cbn [ts_children] in Ga. cbn [call_child] in E. fold (items c2) in E.
  destruct (delimited_core (fst (delimiters ak)) (snd (delimiters ak)) arguments_item c2)
    as [o [m [c [EQ [Ko [Kc [_ FA]]]]]]].
  { destruct K as [[_ ->]|[[_ ->]|[_ ->]]]; discriminate. }
  { destruct K as [[_ ->]|[[_ ->]|[_ ->]]]; discriminate. }
  { exact DL. }
  subst c2. rewrite wrap_inside_eq in E.
  assert (SO : slots_ok false m = true).
  { cbn [slots_ok] in SL. rewrite Ko in SL.
    assert (X : slots_ok false (m ++ [c]) = true)
      by (destruct K as [[_ ->]|[[_ ->]|[_ ->]]]; exact SL).
    revert X. clear. generalize false. induction m as [|d m IH]; intros b X; [reflexivity|].
    cbn [app slots_ok] in *. destruct (ts_kind d); try (apply IH; exact X).
    apply andb_prop in X as [X1 X2]. rewrite X1. apply IH, X2. }
  cbn [forallb] in GL, CL2. apply andb_prop in GL as [Go GL]. apply andb_prop in CL2 as [Co CL2].
  rewrite forallb_app in GL, CL2. apply andb_prop in GL as [Gm Gc]. apply andb_prop in CL2 as [Cm Cc].
  cbn [forallb] in Gc, Cc. rewrite andb_true_r in Gc, Cc.
  inversion Ga as [|? ? Ho Hm]; subst. apply Forall_app in Hm as [Hm Hc].
  inversion Hc as [|? ? Hc' _]; subst.
  destruct (Ho Go Co) as [xo [So [Kxo Wo]]].
  { rewrite Ko. destruct K as [[_ ->]|[[_ ->]|[_ ->]]]; discriminate. }
  destruct (Hc' Gc Cc) as [xc [Sc [Kxc Wc]]].
  { rewrite Kc. destruct K as [[_ ->]|[[_ ->]|[_ ->]]]; discriminate. }
  rewrite So, Sc in E.
  pose proof (arguments_whole m Hm Gm Cm FA SO) as WA.
  assert (WAA : whole (SNode ak ([xo] ++ SNode R_ARGUMENT_LIST (argument_list (items m)) :: [xc]))).
  { rewrite Ko in Kxo. rewrite Kc in Kxc.
    destruct K as [[_ ->]|[[_ ->]|[_ ->]]]; by_rule;
      solve [cbn [app map obeys]; rewrite Kxo, Kxc; reflexivity
            |repeat (constructor; [assumption|]); constructor]. }
  eexists. split; [exact E|]. split; [reflexivity|].
  destruct K as [[-> ->]|[[-> ->]|[-> ->]]]; by_rule;
    solve [cbn [app map obeys]; rewrite Kx; cbn [fill]; rewrite Kf; reflexivity
          |cbn [app]; repeat (constructor; [assumption|]); constructor].
Qed.

Lemma kinds_whole k l ks : made l -> map ts_kind l = ks ->
  (exists r, ungram k = Some r /\ obeys r ks = true) ->
  whole (SNode k (became (items l))).
Proof.
  intros M E [r [U O]]. destruct (made_kinds l M) as [A B]. eapply whole_node; [exact U| |exact B].
  rewrite A, E. exact O.
Qed.

Lemma node_rule k ks : class_of k = C_node \/ class_of k = C_string ->
  children_ok k ks = true -> exists r, ungram k = Some r /\ obeys r ks = true.
Proof.
  intros CL C. destruct CL as [CL|CL]; destruct k; try discriminate CL; eexists; (split; [reflexivity|]);
    cbn [children_ok] in C; try (apply each_fill in C; exact C).
  cbn [existsb] in C. rewrite orb_false_r in C. apply orb_true_iff in C as [C|C].
  - destruct ks as [|a [|b [|]]]; try solve [no_match C].
    cbn [each] in C. rewrite andb_true_r in C. apply andb_prop in C as [Ca Cb].
    cbn [obeys fill]. rewrite Ca. cbn [andb].
    apply one_of_true in Cb. destruct Cb as [<-|[]]. reflexivity.
  - destruct ks as [|a [|b [|c [|]]]]; try solve [no_match C].
    cbn [each] in C. rewrite andb_true_r in C. apply andb_prop in C as [Ca C].
    apply andb_prop in C as [Cb Cc]. cbn [obeys fill]. rewrite Ca, Cb, Cc. reflexivity.
Qed.

Lemma if_whole l : made l -> children_ok R_IF_STATEMENT (map ts_kind l) = true ->
  whole (SNode R_IF_STATEMENT (wrap_from ELSE_KW R_ELSE_CLAUSE (items l))).
Proof.
  intros M C. cbn [children_ok existsb] in C. rewrite orb_false_r in C.
  apply orb_true_iff in C as [C|C].
  - destruct l as [|a [|b [|c [|d [|t [|]]]]]]; try solve [no_match C].
    cbn [map each] in C. rewrite andb_true_r in C. rewrite !andb_true_iff in C.
    destruct C as [Ca [Cb [Cc [Cd Ct]]]].
    assert (E : wrap_from ELSE_KW R_ELSE_CLAUSE (items [a; b; c; d; t])
                = became (items [a; b; c; d; t])).
    { rewrite !items_cons. cbn [wrap_from]. unfold item_kind. cbn [fst snd].
      assert (N : forall p k, one_of p k = true -> one_of p ELSE_KW = false -> kind_eqb k ELSE_KW = false).
      { intros p k X Y. apply kind_eqb_neq. intros ->. rewrite X in Y. discriminate. }
      rewrite (N _ _ Ca eq_refl), (N _ _ Cb eq_refl), (N _ _ Cc eq_refl), (N _ _ Cd eq_refl),
        (N _ _ Ct eq_refl). reflexivity. }
    rewrite E. eapply kinds_whole; [exact M|reflexivity|]. eexists. split; [reflexivity|].
    cbn [map obeys fill]. rewrite Ca, Cb, Cc, Cd, Ct. reflexivity.
  - destruct l as [|a [|b [|c [|d [|t [|q [|v [|]]]]]]]]; try solve [no_match C].
    cbn [map each] in C. rewrite andb_true_r in C. rewrite !andb_true_iff in C.
    destruct C as [Ca [Cb [Cc [Cd [Ct [Cq Cv]]]]]].
    assert (Kq : ts_kind q = ELSE_KW).
    { apply one_of_true in Cq. destruct Cq as [Cq|[]]. auto. }
    assert (E : wrap_from ELSE_KW R_ELSE_CLAUSE (items [a; b; c; d; t; q; v])
                = became (items [a; b; c; d; t]) ++ [SNode R_ELSE_CLAUSE (became (items [q; v]))]).
    { rewrite !items_cons. cbn [wrap_from]. unfold item_kind. cbn [fst snd].
      assert (N : forall p k, one_of p k = true -> one_of p ELSE_KW = false -> kind_eqb k ELSE_KW = false).
      { intros p k X Y. apply kind_eqb_neq. intros ->. rewrite X in Y. discriminate. }
      rewrite (N _ _ Ca eq_refl), (N _ _ Cb eq_refl), (N _ _ Cc eq_refl), (N _ _ Cd eq_refl),
        (N _ _ Ct eq_refl), Kq. change (kind_eqb ELSE_KW ELSE_KW) with true. cbn iota.
      rewrite !became_cons. cbn [items map became flat_map snd]. rewrite !app_nil_r, <- !app_assoc.
      reflexivity. }
    rewrite E. change [a; b; c; d; t; q; v] with ([a; b; c; d; t] ++ [q; v]) in M.
    apply Forall_app in M as [M1 M2].
    destruct (made_kinds _ M1) as [A B].
    by_rule.
    + rewrite map_app, A. cbn [map app obeys fill]. rewrite Ca, Cb, Cc, Cd, Ct. reflexivity.
    + apply Forall_app. split; [exact B|]. constructor; [|constructor].
      eapply kinds_whole; [exact M2|reflexivity|]. eexists. split; [reflexivity|].
      cbn [map obeys fill]. rewrite Cq, Cv. reflexivity.
Qed.

Lemma parameter_whole l : made l -> children_ok R_PARAMETER (map ts_kind l) = true ->
  whole (SNode R_PARAMETER (wrap_from EQUAL R_PARAMETER_DEFAULT (items l))).
Proof.
  intros M C. cbn [children_ok existsb] in C. rewrite orb_false_r in C.
  assert (N : forall p k, one_of p k = true -> one_of p EQUAL = false -> kind_eqb k EQUAL = false).
  { intros p k X Y. apply kind_eqb_neq. intros ->. rewrite X in Y. discriminate. }
  apply orb_true_iff in C as [C|C].
  - destruct l as [|a [|]]; try solve [no_match C].
    cbn [map each] in C. rewrite andb_true_r in C.
    assert (E : wrap_from EQUAL R_PARAMETER_DEFAULT (items [a]) = became (items [a])).
    { rewrite !items_cons. cbn [wrap_from]. unfold item_kind. cbn [fst snd].
      rewrite (N _ _ C eq_refl). reflexivity. }
    rewrite E. eapply kinds_whole; [exact M|reflexivity|]. eexists. split; [reflexivity|].
    cbn [map obeys fill]. rewrite C. reflexivity.
  - destruct l as [|a [|q [|v [|]]]]; try solve [no_match C].
    cbn [map each] in C. rewrite andb_true_r in C. rewrite !andb_true_iff in C.
    destruct C as [Ca [Cq Cv]].
    assert (Kq : ts_kind q = EQUAL).
    { apply one_of_true in Cq. destruct Cq as [Cq|[]]. auto. }
    assert (E : wrap_from EQUAL R_PARAMETER_DEFAULT (items [a; q; v])
                = became (items [a]) ++ [SNode R_PARAMETER_DEFAULT (became (items [q; v]))]).
    { rewrite !items_cons. cbn [wrap_from]. unfold item_kind. cbn [fst snd].
      rewrite (N _ _ Ca eq_refl), Kq. change (kind_eqb EQUAL EQUAL) with true. cbn iota.
      rewrite !became_cons. cbn [items map became flat_map snd]. rewrite !app_nil_r.
      reflexivity. }
    rewrite E. change [a; q; v] with ([a] ++ [q; v]) in M.
    apply Forall_app in M as [M1 M2].
    destruct (made_kinds _ M1) as [A B].
    by_rule.
    + rewrite map_app, A. cbn [map app obeys fill]. rewrite Ca. reflexivity.
    + apply Forall_app. split; [exact B|]. constructor; [|constructor].
      eapply kinds_whole; [exact M2|reflexivity|]. eexists. split; [reflexivity|].
      cbn [map obeys fill]. rewrite Cq, Cv. reflexivity.
Qed.

Lemma between_core (f : list kind -> bool) o m c :
  between f (map ts_kind (o :: core m ++ [c])) = f (map ts_kind (core m)).
Proof.
  unfold between. cbn [map tl]. rewrite map_app. cbn [map]. rewrite removelast_last. reflexivity.
Qed.

Lemma good_all t : good t /\ Forall good (ts_children t).
Proof.
  induction t as [k f s e cs IH] using ts_ind'.
  assert (F : Forall good cs) by (eapply Forall_impl; [|exact IH]; intros a [A _]; exact A).
  split; [|exact F]. intros G C NC. cbn [ts_kind] in NC.
  destruct (class_of k) eqn:CL.
  - destruct k; try discriminate CL. discriminate G.
  - assert (O : opaque k = false) by (destruct k; try discriminate CL; reflexivity).
    destruct (conforms_unfold _ _ _ _ _ C O) as [A [B _]].
    cbn [gram] in G. rewrite CL in G.
    exists (SNode k (became (items cs))). split; [cbn [shapes]; rewrite CL; reflexivity|].
    split; [reflexivity|]. rewrite became_core.
    eapply kinds_whole; [apply core_made; assumption|reflexivity|].
    apply node_rule; auto.
  - eapply call_whole; eassumption.
  - (* parameters *)
    destruct k; try discriminate CL. destruct (conforms_unfold _ _ _ _ _ C eq_refl) as [A [B _]].
    cbn [gram class_of] in G. apply andb_prop in G as [D G].
    destruct (delimited_core L_PAREN R_PAREN parameters_item cs ltac:(discriminate) ltac:(discriminate) D)
      as [o [m [c [-> [Ko [Kc [CE FM]]]]]]].
    rewrite CE in A. cbn [children_ok] in A. rewrite between_core in A.
    eexists. split; [cbn [shapes class_of]; fold (items (o :: m ++ [c])); rewrite wrap_inside_eq; reflexivity|].
    split; [reflexivity|].
    cbn [forallb] in G, B. apply andb_prop in G as [Go GL]. apply andb_prop in B as [Co CL2].
    rewrite forallb_app in GL, CL2. apply andb_prop in GL as [Gm Gc]. apply andb_prop in CL2 as [Cm Cc].
    cbn [forallb] in Gc, Cc. rewrite andb_true_r in Gc, Cc.
    inversion F as [|? ? Ho Hm]; subst. apply Forall_app in Hm as [Hm Hc].
    inversion Hc as [|? ? Hc' _]; subst.
    destruct (Ho Go Co) as [xo [So [Kxo Wo]]]; [congruence|].
    destruct (Hc' Gc Cc) as [xc [Sc [Kxc Wc]]]; [congruence|].
    rewrite So, Sc, became_core. rewrite Ko in Kxo. rewrite Kc in Kxc.
    pose proof (core_made m Hm Gm Cm) as M.
    by_rule; [cbn [app map obeys]; rewrite Kxo, Kxc; reflexivity|].
    cbn [app]. constructor; [exact Wo|]. constructor; [|constructor; [exact Wc|constructor]].
    eapply kinds_whole; [exact M|reflexivity|]. eexists. split; [reflexivity|]. exact A.
  - destruct k; try discriminate CL. destruct (conforms_unfold _ _ _ _ _ C eq_refl) as [A [B _]].
    cbn [gram class_of] in G. apply andb_prop in G as [D G].
    eexists. split; [reflexivity|]. split; [reflexivity|]. fold (items cs).
    rewrite wrap_from_core by discriminate. apply parameter_whole; [apply core_made|]; assumption.
  - destruct k; try discriminate CL. destruct (conforms_unfold _ _ _ _ _ C eq_refl) as [A [B _]].
    cbn [gram class_of] in G. apply andb_prop in G as [D G].
    eexists. split; [reflexivity|]. split; [reflexivity|]. fold (items cs).
    rewrite wrap_from_core by discriminate. apply if_whole; [apply core_made|]; assumption.
  - destruct k; try discriminate CL. destruct (conforms_unfold _ _ _ _ _ C eq_refl) as [A [B _]].
    cbn [gram class_of] in G. apply andb_prop in G as [D G].
    eexists. split; [reflexivity|]. split; [reflexivity|]. fold (items cs).
    apply argument_whole; [apply core_made| |]; assumption.
  - (* braces *)
    destruct k; try discriminate CL. destruct (conforms_unfold _ _ _ _ _ C eq_refl) as [A [B _]].
    cbn [gram class_of] in G. apply andb_prop in G as [D G].
    destruct (delimited_core L_CURLY R_CURLY braced_item cs ltac:(discriminate) ltac:(discriminate) D)
      as [o [m [c [-> [Ko [Kc [CE FM]]]]]]].
    rewrite CE in A. cbn [children_ok] in A. rewrite between_core in A.
    eexists. split; [cbn [shapes class_of]; fold (items (o :: m ++ [c])); rewrite wrap_inside_eq; reflexivity|].
    split; [reflexivity|].
    cbn [forallb] in G, B. apply andb_prop in G as [Go GL]. apply andb_prop in B as [Co CL2].
    rewrite forallb_app in GL, CL2. apply andb_prop in GL as [Gm Gc]. apply andb_prop in CL2 as [Cm Cc].
    cbn [forallb] in Gc, Cc. rewrite andb_true_r in Gc, Cc.
    inversion F as [|? ? Ho Hm]; subst. apply Forall_app in Hm as [Hm Hc].
    inversion Hc as [|? ? Hc' _]; subst.
    destruct (Ho Go Co) as [xo [So [Kxo Wo]]]; [congruence|].
    destruct (Hc' Gc Cc) as [xc [Sc [Kxc Wc]]]; [congruence|].
    rewrite So, Sc, became_core. rewrite Ko in Kxo. rewrite Kc in Kxc.
    pose proof (core_made m Hm Gm Cm) as M.
    by_rule; [cbn [app map obeys]; rewrite Kxo, Kxc; reflexivity|].
    cbn [app]. constructor; [exact Wo|]. constructor; [|constructor; [exact Wc|constructor]].
    eapply kinds_whole; [exact M|reflexivity|]. eexists. split; [reflexivity|]. exact A.
  - eexists. split; [cbn [shapes]; rewrite CL; reflexivity|]. split; [reflexivity|].
    destruct k; try discriminate CL; injection CL as <-; reflexivity.
  - eexists. split; [cbn [shapes]; rewrite CL; reflexivity|]. split; [reflexivity|].
    destruct k; try discriminate CL; injection CL as <-; reflexivity.
  - assert (O : opaque k = false) by (destruct k; try discriminate CL; reflexivity).
    destruct (conforms_unfold _ _ _ _ _ C O) as [A [B _]].
    cbn [gram] in G. rewrite CL in G.
    exists (SNode k (became (items cs))). split; [cbn [shapes]; rewrite CL; reflexivity|].
    split; [reflexivity|]. rewrite became_core.
    eapply kinds_whole; [apply core_made; assumption|reflexivity|].
    apply node_rule; auto.
  - eexists. split; [cbn [shapes]; rewrite CL; reflexivity|]. split; [reflexivity|].
    destruct k; try discriminate CL; reflexivity.
  - eexists. split; [cbn [shapes]; rewrite CL; reflexivity|].
    destruct k; try discriminate CL; split; reflexivity.
  - destruct k; try discriminate CL. congruence.
  - cbn [gram] in G. rewrite CL in G. discriminate G.
Qed.

(** * The tree that is parsed *)
Lemma shape_skel g : forall pos, skel_shape (fst (shape_of pos g)) = skel_of g.
Proof.
  induction g as [k cs IH|t] using green_ind2; intro pos.
  - rewrite shape_of_node. cbn [fst skel_shape skel_of]. f_equal. revert pos.
    induction IH as [|c r Hc _ IHr]; intro pos; [reflexivity|]. cbn [shapes_of].
    specialize (Hc pos). destruct (shape_of pos c) as [s p]. specialize (IHr p).
    destruct (shapes_of p r) as [l p']. cbn [fst map] in *. congruence.
  - cbn [shape_of]. destruct (own_range pos t). reflexivity.
Qed.

Theorem parsed_complete src t g : well_parsed src t -> conforms t = true ->
  parse src false t = Some (g, false) -> complete (skel_of g) = true.
Proof.
  intros W C P. pose proof (structure_holds src t g W P) as S.
  rewrite <- (shape_skel g 0), S. destruct W as [GR _].
  unfold gram_root in GR. apply andb_prop in GR as [K G]. apply kind_eqb_eq in K.
  destruct t as [k f s e cs]. cbn [ts_kind ts_children] in *. subst k.
  destruct (conforms_unfold _ _ _ _ _ C eq_refl) as [A [B _]].
  assert (F : Forall good cs).
  { apply Forall_forall. intros x _. apply good_all. }
  pose proof (core_made cs F G B) as M.
  assert (E : flat_map shapes cs = became (items (core cs))).
  { rewrite <- became_core. unfold became, items. rewrite flat_map_concat_map, flat_map_concat_map, map_map.
    reflexivity. }
  rewrite E. change (whole (SNode R_ROOT [SNode R_EXPRESSION_LIST (became (items (core cs)));
                      STok EOF (blen src) (blen src)])).
  by_rule; [reflexivity|]. constructor; [|constructor; [reflexivity|constructor]].
  eapply kinds_whole; [exact M|reflexivity|]. eexists. split; [reflexivity|]. exact A.
Qed.

(** * The factory *)

Fixpoint rebuilt_all (l : list green) : option (list green) :=
  match l with
  | [] => Some []
  | x :: r =>
    match rebuilt x, rebuilt_all r with
    | Some y, Some z => Some (y :: z)
    | _, _ => None
    end
  end.
Lemma rebuilt_node k cs : rebuilt (GNode k cs) =
  match rebuilt_all cs, layout_of k with
  | Some cs', Some l =>
    Some (GNode (if keeps l (map green_kind cs') then k else to_bogus k) cs')
  | _, _ => None
  end.
Proof.
  cbn [rebuilt].
  assert (E : (fix all (l : list green) : option (list green) :=
             match l with
             | [] => Some []
             | x :: r =>
               match rebuilt x, all r with
               | Some y, Some z => Some (y :: z)
               | _, _ => None
               end
             end) cs = rebuilt_all cs).
  { induction cs as [|x r IH]; [reflexivity|]. cbn [rebuilt_all]. rewrite IH. reflexivity. }
  rewrite E. reflexivity.
Qed.
Lemma rebuilt_all_cons x l r : rebuilt_all (x :: l) = Some r ->
  exists y z, rebuilt x = Some y /\ rebuilt_all l = Some z /\ r = y :: z.
Proof.
  cbn. destruct (rebuilt x) as [y|], (rebuilt_all l) as [z|]; intro H; try discriminate H.
  injection H as <-. eauto.
Qed.

Definition agrees (p : part) (s : kind -> bool) : Prop :=
  match p with
  | Must l => forall k, one_of l k = true -> s k = true
  | May l => forall k, s k = one_of l k
  end.
Lemma fill_left ps ss : Forall2 agrees ps ss -> forall ks, fill ps ks = true -> left_over ss ks = [].
Proof.
  induction 1 as [|p s ps ss A F IH]; intros ks H.
  - destruct ks; [reflexivity|discriminate].
  - destruct p as [l|l].
    + destruct ks as [|k ks]; [discriminate|]. cbn [fill] in H. apply andb_prop in H as [H1 H2].
      cbn [left_over]. rewrite (A k H1). apply IH, H2.
    + destruct ks as [|k ks]; [reflexivity|].
      cbn [fill] in H. cbn [left_over]. rewrite (A k). destruct (one_of l k); apply IH, H.
Qed.
Lemma agrees_must l s : forallb s l = true -> agrees (Must l) s.
Proof. intros H k K. apply one_of_true in K. rewrite forallb_forall in H. auto. Qed.
Lemma agrees_may k0 : agrees (May [k0]) (kind_eqb k0).
Proof.
  intro k. cbn. rewrite orb_false_r. destruct (kind_eqb k0 k) eqn:E.
  - apply kind_eqb_eq in E. subst. symmetry. apply kind_eqb_refl.
  - symmetry. apply kind_eqb_neq. apply kind_eqb_neq in E. congruence.
Qed.
Lemma parted_separated l by_ p ks : forallb p l = true ->
  parted l by_ ks = true -> separated p by_ ks = true.
Proof.
  intros A. remember (List.length ks) as n eqn:L.
  assert (L' : List.length ks <= n) by lia. clear L. revert ks L'.
  assert (Ap : forall k, one_of l k = true -> p k = true).
  { intros k K. apply one_of_true in K. rewrite forallb_forall in A. auto. }
  induction n as [|n IH]; intros ks L H; [destruct ks; [discriminate|cbn in L; lia]|].
  destruct ks as [|k [|s ks]]; [discriminate| |]; cbn [parted separated] in *.
  - apply andb_prop in H as [H _]. auto.
  - rewrite !andb_true_iff in H. destruct H as [H1 [H2 H3]]. rewrite (Ap k H1), H2. cbn [andb].
    destruct ks as [|d ks]; [discriminate|]. apply (IH (d :: ks)); [cbn in *; lia|exact H3].
Qed.

Lemma rule_keeps k r ks : ungram k = Some r -> obeys r ks = true ->
  exists l, layout_of k = Some l /\ keeps l ks = true.
Proof.
  intros U O.
  assert (FL : forall ps ss, Forall2 agrees ps ss -> fill ps ks = true -> keeps (LSlots ss) ks = true).
  { intros ps ss F H. cbn [keeps]. rewrite (fill_left ps ss F ks H). reflexivity. }
  destruct k; try discriminate U; injection U as <-; eexists; (split; [reflexivity|]); cbn [obeys] in O;
    try (refine (FL _ _ _ O);
         repeat (apply Forall2_cons; [first [apply agrees_may|apply agrees_must; reflexivity]|]);
         apply Forall2_nil).
  - (* R_ARGUMENT *)
    destruct ks as [|a ks]; [reflexivity|]. cbn [fill] in O. cbn [keeps left_over].
    rewrite (agrees_may R_ARGUMENT_NAME_CLAUSE a).
    assert (X : forall k, one_of expressions k = true -> any_expression k = true).
    { intros k K. destruct k; try discriminate K; reflexivity. }
    destruct (one_of [R_ARGUMENT_NAME_CLAUSE] a).
    + destruct ks as [|b ks]; [reflexivity|]. destruct (one_of expressions b) eqn:E; [|discriminate O].
      rewrite (X b E). destruct ks; [reflexivity|discriminate O].
    + destruct (one_of expressions a) eqn:E; [|discriminate O].
      rewrite (X a E). destruct ks; [reflexivity|discriminate O].
  - destruct ks as [|k ks]; [reflexivity|]. apply (parted_separated [R_PARAMETER]); [reflexivity|exact O].
  - destruct ks as [|k ks]; [reflexivity|]. apply (parted_separated [R_ARGUMENT]); [reflexivity|exact O].
  - cbn [keeps]. rewrite forallb_forall in *. intros x I. specialize (O x I).
    destruct x; try discriminate O; reflexivity.
Qed.

Lemma skel_green g : skel_kind (skel_of g) = green_kind g.
Proof. destruct g; reflexivity. Qed.

Lemma complete_rebuilt g : complete (skel_of g) = true -> rebuilt g = Some g.
Proof.
  induction g as [k cs IH|t] using green_ind2; intro C; [|reflexivity].
  cbn [skel_of complete] in C. destruct (ungram k) as [r|] eqn:U; [|discriminate].
  apply andb_prop in C as [O C]. rewrite rebuilt_node.
  assert (E : rebuilt_all cs = Some cs).
  { clear O. induction IH as [|c r' Hc _ IHr]; [reflexivity|]. cbn [map forallb] in C.
    apply andb_prop in C as [C1 C2]. cbn [rebuilt_all]. rewrite (Hc C1), (IHr C2). reflexivity. }
  rewrite E. rewrite map_map in O.
  replace (map (fun x => skel_kind (skel_of x)) cs) with (map green_kind cs) in O
    by (apply map_ext; intro; symmetry; apply skel_green).
  destruct (rule_keeps k r _ U O) as [l [-> ->]]. reflexivity.
Qed.

Lemma rebuilt_tokens g : forall g', rebuilt g = Some g' -> tokens g' = tokens g.
Proof.
  induction g as [k cs IH|t] using green_ind2; intros g' H; [|injection H as <-; reflexivity].
  rewrite rebuilt_node in H. destruct (rebuilt_all cs) as [cs'|] eqn:E; [|discriminate].
  destruct (layout_of k) as [l|]; [|discriminate]. injection H as <-. cbn [tokens]. revert cs' E.
  induction IH as [|c r Hc _ IHr]; intros cs' E; [injection E as <-; reflexivity|].
  destruct (rebuilt_all_cons _ _ _ E) as [y [z [Ey [Ez ->]]]]. cbn [flat_map].
  rewrite (Hc y Ey), (IHr z Ez). reflexivity.
Qed.

(** Some node of the tree is bogus. *)
Lemma to_bogus_bogus k : is_bogus (to_bogus k) = true.
Proof. destruct k; reflexivity. Qed.
Lemma rebuilt_same g : forall g', rebuilt g = Some g' -> any_node is_bogus g' = false -> g' = g.
Proof.
  induction g as [k cs IH|t] using green_ind2; intros g' H N; [|injection H as <-; reflexivity].
  rewrite rebuilt_node in H. destruct (rebuilt_all cs) as [cs'|] eqn:E; [|discriminate].
  destruct (layout_of k) as [l|]; [|discriminate]. injection H as <-. cbn [any_node] in N.
  apply orb_false_iff in N as [N1 N2]. destruct (keeps l (map green_kind cs'));
    [|rewrite to_bogus_bogus in N1; discriminate]. f_equal. clear N1. revert cs' E N2.
  induction IH as [|c r Hc _ IHr]; intros cs' E N; [injection E as <-; reflexivity|].
  destruct (rebuilt_all_cons _ _ _ E) as [y [z [Ey [Ez ->]]]]. cbn [existsb] in N.
  apply orb_false_iff in N as [Ny Nz]. rewrite (Hc y Ey Ny), (IHr z Ez Nz). reflexivity.
Qed.

Theorem parsed_kept src t : well_parsed src t -> conforms t = true ->
  exists g, parse src false t = Some (g, false) /\ complete (skel_of g) = true /\
            rebuilt g = Some g.
Proof.
  intros W C. destruct W as [G [E L]].
  destruct (parse_spec src t G E L) as (g & ps & p & P & _).
  pose proof (parsed_complete src t g (conj G (conj E L)) C P) as A.
  exists g. split; [exact P|]. split; [exact A|apply complete_rebuilt, A].
Qed.
