(** * Proofs about parsing, continued: from the events to the syntax tree. *)

From Coq Require Import NArith List Bool Arith Lia.
From Verif Require Import Text TextFacts SyntaxKind ParseModel ParseSpec ParseProofs.
Import ListNotations.

(** ** The tokens of a shape *)
Fixpoint stoks (sh : shape) : list (kind * nat * nat) :=
  match sh with
  | SNode _ cs => flat_map stoks cs
  | STok k s e => [(k, s, e)]
  end.
Definition stoks_l (l : list shape) : list (kind * nat * nat) := flat_map stoks l.

Lemma stoks_l_app : forall a b, stoks_l (a ++ b) = stoks_l a ++ stoks_l b.
Proof. intros. apply flat_map_app. Qed.

Lemma stoks_l_node : forall k l r, stoks_l (SNode k l :: r) = stoks_l l ++ stoks_l r.
Proof. reflexivity. Qed.

Lemma token_leaves_app : forall a b, token_leaves (a ++ b) = token_leaves a ++ token_leaves b.
Proof. intros. apply flat_map_app. Qed.

Lemma wrap_from_stoks : forall k node l, stoks_l (wrap_from k node l) = stoks_l (became l).
Proof.
  induction l as [|i l IH]; [reflexivity|]. cbn [wrap_from].
  destruct (kind_eqb (item_kind i) k).
  - rewrite stoks_l_node. apply app_nil_r.
  - rewrite became_cons, !stoks_l_app, IH. reflexivity.
Qed.

Lemma wrap_inside_stoks : forall node inner l,
  (forall o r, l = o :: r -> stoks_l (inner (removelast r)) = stoks_l (became (removelast r))) ->
  stoks_l (wrap_inside node inner l) = stoks_l (became l).
Proof.
  intros node inner [|o r] H; [reflexivity|]. cbn [wrap_inside].
  rewrite !stoks_l_app, stoks_l_node, (H o r eq_refl), app_nil_r.
  rewrite became_cons, stoks_l_app. f_equal.
  rewrite <- stoks_l_app, <- became_app. f_equal. f_equal.
  destruct r as [|x r _] using rev_ind; [reflexivity|].
  rewrite removelast_last, app_length. cbn [length].
  replace (length r + 1 - 1) with (length r + 0) by lia.
  rewrite skipn_app, skipn_all2 by lia.
  replace (length r + 0 - length r) with 0 by lia. reflexivity.
Qed.

Lemma slots_became : forall l ss last, slots l = (ss, last) ->
  stoks_l (became l)
  = flat_map (fun s => stoks_l (became (fst s)) ++ stoks_l (snd s)) ss ++ stoks_l (became last).
Proof.
  induction l as [|i l IH]; intros ss last H; cbn [slots] in H.
  - injection H as <- <-. reflexivity.
  - destruct (slots l) as [ss0 last0]. specialize (IH _ _ eq_refl).
    rewrite became_cons, stoks_l_app, IH.
    destruct (kind_eqb (item_kind i) COMMA).
    + injection H as <- <-. cbn. rewrite <- app_assoc. reflexivity.
    + destruct ss0 as [|[s c] ss0]; injection H as <- <-.
      * cbn [flat_map app]. rewrite became_cons, stoks_l_app. reflexivity.
      * cbn [flat_map fst snd]. rewrite became_cons, stoks_l_app, <- !app_assoc. reflexivity.
Qed.

Lemma slots_all : forall P l ss last, slots l = (ss, last) -> Forall P l ->
  Forall (fun s : list item * list shape =>
            Forall (fun i => P i /\ item_kind i <> COMMA) (fst s)) ss /\
  Forall (fun i => P i /\ item_kind i <> COMMA) last.
Proof.
  induction l as [|i l IH]; intros ss last H F; cbn [slots] in H.
  - injection H as <- <-. split; constructor.
  - destruct (slots l) as [ss0 last0]. inversion F as [|? ? Fi Fl]; subst.
    destruct (IH _ _ eq_refl Fl) as [A B].
    destruct (kind_eqb (item_kind i) COMMA) eqn:K.
    + injection H as <- <-. split; [constructor; [constructor|exact A]|exact B].
    + assert (NK : item_kind i <> COMMA) by (intro X; rewrite X in K; discriminate).
      destruct ss0 as [|[s c] ss0]; injection H as <- <-.
      * split; [constructor|]. constructor; auto.
      * inversion A; subst. split; [|exact B]. constructor; [|assumption].
        cbn in *. constructor; auto.
Qed.

Definition arg_item (i : item) : Prop :=
  arguments_item (item_kind i) = true /\ (item_kind i = COMMENT -> snd i = []).

Lemma slot_stoks : forall s, Forall (fun i => arg_item i /\ item_kind i <> COMMA) s ->
  stoks_l (slot_shape s) = stoks_l (became s).
Proof.
  intros s F. unfold slot_shape.
  destruct (existsb (fun i => kind_eqb (item_kind i) R_ARGUMENT) s) eqn:E; [reflexivity|].
  assert (B : became s = []).
  { induction F as [|i s [[A C] N] F IH]; [reflexivity|]. cbn [existsb] in E.
    apply orb_false_iff in E. destruct E as [E1 E2]. rewrite became_cons, (IH E2).
    assert (K : item_kind i = COMMENT).
    { destruct (item_kind i); try discriminate; try reflexivity; congruence. }
    rewrite (C K). reflexivity. }
  rewrite B. reflexivity.
Qed.

Lemma argument_list_stoks : forall l, Forall arg_item l ->
  stoks_l (argument_list l) = stoks_l (became l).
Proof.
  intros l F. unfold argument_list. destruct (slots l) as [ss last] eqn:E.
  rewrite (slots_became _ _ _ E). destruct (slots_all _ _ _ _ E F) as [A B].
  destruct ss as [|s0 ss]; [reflexivity|].
  rewrite stoks_l_app, (slot_stoks last B). f_equal.
  clear E B. remember (s0 :: ss) as l0. clear Heql0 s0 ss.
  induction A as [|[s c] l0 A1 A IH]; [reflexivity|]. cbn [flat_map fst snd] in *.
  rewrite !stoks_l_app, (slot_stoks s A1), IH. reflexivity.
Qed.

Lemma name_clause_stoks : forall l a b, name_clause l = (a, b) ->
  stoks_l a ++ stoks_l b = stoks_l (became l).
Proof.
  induction l as [|i l IH]; intros a b H; cbn [name_clause] in H.
  - injection H as <- <-. reflexivity.
  - rewrite became_cons, stoks_l_app. destruct (kind_eqb (item_kind i) EQUAL).
    + injection H as <- <-. reflexivity.
    + destruct (name_clause l) as [a0 b0]. injection H as <- <-.
      rewrite stoks_l_app, <- app_assoc, (IH _ _ eq_refl). reflexivity.
Qed.

Lemma argument_children_stoks : forall l, stoks_l (argument_children l) = stoks_l (became l).
Proof.
  induction l as [|i l IH]; [reflexivity|]. cbn [argument_children].
  destruct (is_name (fst i)).
  - destruct (name_clause (i :: l)) as [a b] eqn:E. rewrite stoks_l_node.
    apply (name_clause_stoks _ _ _ E).
  - rewrite became_cons, !stoks_l_app, IH. reflexivity.
Qed.

(** ** The tokens of the shapes are the tokens of the leaves *)
Definition tok_good (t : ts) : Prop :=
  gram t = true -> stoks_l (shapes t) = token_leaves (leaves t).

Lemma became_stoks : forall l, Forall tok_good l -> forallb gram l = true ->
  stoks_l (became (items l)) = token_leaves (flat_map leaves l).
Proof.
  induction 1 as [|t l T F IH]; intro G; [reflexivity|]. cbn [forallb] in G.
  apply andb_prop in G. destruct G as [G1 G2].
  cbn [items map]. rewrite became_cons, stoks_l_app. cbn [snd flat_map].
  rewrite token_leaves_app, (T G1). fold (items l). rewrite (IH G2). reflexivity.
Qed.

Lemma closed_all : forall close p l, closed_by close p l = true ->
  Forall (fun c => p (ts_kind c) = true) (removelast l).
Proof.
  induction l as [|c l IH]; intro H; [discriminate|]. destruct l as [|d l]; [constructor|].
  cbn [closed_by] in H. apply andb_prop in H. destruct H as [H1 H2].
  change (Forall (fun c => p (ts_kind c) = true) (c :: removelast (d :: l))).
  constructor; auto.
Qed.

Lemma removelast_map : forall (A B : Type) (f : A -> B) l, removelast (map f l) = map f (removelast l).
Proof.
  induction l as [|a l IH]; [reflexivity|]. destruct l as [|b l]; [reflexivity|].
  cbn [map] in *. change (f a :: removelast (f b :: map f l) = map f (a :: removelast (b :: l))).
  rewrite IH. reflexivity.
Qed.

Lemma arguments_stoks : forall open close cs,
  delimited open close arguments_item cs = true ->
  Forall tok_good cs -> forallb gram cs = true ->
  stoks_l (wrap_inside R_ARGUMENT_LIST argument_list (items cs)) = token_leaves (flat_map leaves cs).
Proof.
  intros open close cs D F G. rewrite wrap_inside_stoks; [apply became_stoks; assumption|].
  intros o r E. apply argument_list_stoks.
  destruct cs as [|c cs]; [discriminate|]. cbn [items map] in E. injection E as <- <-.
  cbn [delimited] in D. apply andb_prop in D. destruct D as [_ D].
  apply closed_all in D. rewrite removelast_map. apply Forall_map.
  eapply Forall_impl; [|exact D]. intros a Ha. cbn. unfold arg_item, item_kind. cbn.
  split; [exact Ha|]. apply comment_shapes.
Qed.

Lemma shapes_tokens_all : forall t, tok_good t /\ Forall tok_good (ts_children t).
Proof.
  induction t as [k f s e cs IH] using ts_ind'.
  assert (IH1 : Forall tok_good cs).
  { eapply Forall_impl; [|exact IH]. intros a [A _]. exact A. }
  split; [|exact IH1].
  unfold tok_good. cbn [gram shapes leaves]. intro G.
  fold (items cs).
  destruct (class_of k) eqn:C; try discriminate.
  - rewrite stoks_l_node, app_nil_r. apply became_stoks; assumption.
  - rewrite stoks_l_node, app_nil_r. clear C IH1.
    induction IH as [|c cs [T Tc] IH IHl]; [reflexivity|].
    cbn [forallb] in G. apply andb_prop in G. destruct G as [G1 G2].
    cbn [flat_map]. rewrite stoks_l_app, token_leaves_app, (IHl G2). f_equal.
    destruct c as [k' f' s' e' cs']. destruct f'; try (apply (T G1)).
    cbn [ts_children] in Tc. rewrite !andb_true_iff in G1.
    destruct G1 as [[[D S] G] U].
    rewrite stoks_l_node, app_nil_r. fold (items cs').
    rewrite (arguments_stoks _ _ _ D Tc G).
    cbn [leaves ts_kind] in *. destruct (class_of k'); try discriminate. reflexivity.
  - apply andb_prop in G. destruct G as [D G].
    rewrite stoks_l_node, app_nil_r, wrap_inside_stoks by reflexivity. apply became_stoks; assumption.
  - apply andb_prop in G. destruct G as [D G].
    rewrite stoks_l_node, app_nil_r, wrap_from_stoks. apply became_stoks; assumption.
  - apply andb_prop in G. destruct G as [D G].
    rewrite stoks_l_node, app_nil_r, wrap_from_stoks. apply became_stoks; assumption.
  - apply andb_prop in G. destruct G as [D G].
    rewrite stoks_l_node, app_nil_r, argument_children_stoks. apply became_stoks; assumption.
  - apply andb_prop in G. destruct G as [D G].
    rewrite stoks_l_node, app_nil_r, wrap_inside_stoks by reflexivity. apply became_stoks; assumption.
  - reflexivity.
  - reflexivity.
  - rewrite stoks_l_node, app_nil_r. apply became_stoks; assumption.
  - reflexivity.
  - reflexivity.
  - reflexivity.
Qed.

(** No leaf is an end-of-file token. *)
Lemma class_eof : forall k, class_of k <> C_token \/ k <> EOF.
Proof. destruct k; (left; discriminate) || (right; discriminate). Qed.

Lemma lit_eof : forall k l, class_of k = C_value l \/ class_of k = C_skip l -> l <> EOF.
Proof.
  intros k l H. destruct k; cbn in H; destruct H as [H|H]; try discriminate;
    injection H as <-; discriminate.
Qed.

Definition not_eof (x : kind * nat * nat) : Prop := fst (fst x) <> EOF.

Lemma leaves_not_eof : forall t, Forall not_eof (token_leaves (leaves t)).
Proof.
  induction t as [k f s e cs IH] using ts_ind'. cbn [leaves].
  assert (L : Forall not_eof (token_leaves (flat_map leaves cs))).
  { induction IH as [|c cs H IH IHl]; [constructor|]. cbn [flat_map].
    rewrite token_leaves_app. apply Forall_app. split; assumption. }
  destruct (class_of k) eqn:C; try exact L; try constructor; try constructor; unfold not_eof; cbn.
  - apply (lit_eof k). auto.
  - apply (lit_eof k). auto.
  - destruct (class_eof k); congruence.
  - discriminate.
Qed.

(** ** Emitting tokens *)
Section Sink.
Variable src : text.

Definition emit1 (k : kind) (e pos : nat) (tvs : list trivia) : option (tok * nat * list trivia) :=
  let '(leading, _, tvs1) := eat_trivia false pos tvs in
  let '(trailing, p, tvs2) := eat_trivia true e tvs1 in
  bind (slice pos p src) (fun txt =>
  Some ({| tk_kind := k; tk_text := txt; tk_leading := leading; tk_trailing := trailing |}, p, tvs2)).

Lemma do_token_emit : forall k e s,
  do_token src k e s
  = bind (emit1 k e (k_pos s) (k_trivia s)) (fun '(t, p, r) =>
    bind (add_child (GTok t) (k_open s)) (fun st =>
    Some {| k_pos := p; k_trivia := r; k_open := st;
            k_needs_eof := k_needs_eof s && negb (kind_eqb k EOF);
            k_root := k_root s |})).
Proof.
  intros k e s. unfold do_token, emit1.
  destruct (eat_trivia false (k_pos s) (k_trivia s)) as [[lead p0] tvs1].
  destruct (eat_trivia true e tvs1) as [[trail p] tvs2].
  destruct (slice (k_pos s) p src); reflexivity.
Qed.

Inductive emits : list (kind * nat * nat) -> nat -> list trivia -> list tok -> nat -> list trivia -> Prop :=
| E_nil : forall pos tvs, emits [] pos tvs [] pos tvs
| E_cons : forall k s e ks pos tvs t p r ts p' r',
    emit1 k e pos tvs = Some (t, p, r) -> own_range pos t = (s, e) ->
    p = pos + blen (tk_text t) -> emits ks p r ts p' r' ->
    emits ((k, s, e) :: ks) pos tvs (t :: ts) p' r'.

Lemma emits_app : forall a b pos tvs ts p r,
  emits (a ++ b) pos tvs ts p r ->
  exists t1 t2 p1 r1, ts = t1 ++ t2 /\ emits a pos tvs t1 p1 r1 /\ emits b p1 r1 t2 p r.
Proof.
  induction a as [|x a IH]; intros b pos tvs ts p r H.
  - exists [], ts, pos, tvs. repeat split; [constructor|exact H].
  - cbn in H. inversion H; subst. match goal with X : emits (a ++ b) _ _ _ _ _ |- _ => destruct (IH _ _ _ _ _ _ X) as (t1 & t2 & p1 & r1 & -> & A & B) end.
    exists (t :: t1), t2, p1, r1. repeat split; [|exact B]. econstructor; eauto.
Qed.

Lemma emit1_kind : forall k e pos tvs t p r, emit1 k e pos tvs = Some (t, p, r) -> tk_kind t = k.
Proof.
  intros k e pos tvs t p r H. unfold emit1 in H.
  destruct (eat_trivia false pos tvs) as [[a b] c]. destruct (eat_trivia true e c) as [[d f] g].
  destruct (slice pos f src); [|discriminate]. cbn in H. injection H as <- _ _. reflexivity.
Qed.

Lemma emits_one : forall k s e pos tvs ts p r, emits [(k, s, e)] pos tvs ts p r ->
  exists t, ts = [t] /\ emit1 k e pos tvs = Some (t, p, r) /\ own_range pos t = (s, e).
Proof.
  intros k s e pos tvs ts p r H. inversion H as [|? ? ? ? ? ? ? ? ? ? ? ? EM OR PE EN]; subst.
  inversion EN; subst. eauto.
Qed.

(** ** The tree built from the events of a shape *)
Fixpoint shapes_of (pos : nat) (cs : list green) : list shape * nat :=
  match cs with
  | [] => ([], pos)
  | c :: r => let '(s, p) := shape_of pos c in
              let '(l, p') := shapes_of p r in (s :: l, p')
  end.

Lemma shape_of_node : forall k cs pos,
  shape_of pos (GNode k cs) = (SNode k (fst (shapes_of pos cs)), snd (shapes_of pos cs)).
Proof.
  intros k cs pos. cbn [shape_of].
  assert (E : forall cs pos,
    (fix go (pos : nat) (cs : list green) : list shape * nat :=
         match cs with
         | [] => ([], pos)
         | c :: r => let '(s, p) := shape_of pos c in
                     let '(l, p') := go p r in (s :: l, p')
         end) pos cs = shapes_of pos cs).
  { clear. induction cs as [|c cs IH]; intro pos; [reflexivity|]. cbn.
    destruct (shape_of pos c) as [s p]. rewrite IH. reflexivity. }
  rewrite E. destruct (shapes_of pos cs). reflexivity.
Qed.

Fixpoint shape_ind' (P : shape -> Prop)
  (HT : forall k s e, P (STok k s e))
  (HN : forall k cs, Forall P cs -> P (SNode k cs)) (sh : shape) : P sh :=
  match sh with
  | STok k s e => HT k s e
  | SNode k cs =>
    HN k cs ((fix go (l : list shape) : Forall P l :=
                match l with
                | [] => Forall_nil P
                | c :: r => Forall_cons c (shape_ind' P HT HN c) (go r)
                end) cs)
  end.

Definition built (sh : shape) : Prop :=
  Forall not_eof (stoks sh) ->
  forall pos tvs k0 cs0 rest ne rt toks p r,
  emits (stoks sh) pos tvs toks p r ->
  exists g,
    sink_events src (flat sh) {| k_pos := pos; k_trivia := tvs; k_open := (k0, cs0) :: rest;
                                 k_needs_eof := ne; k_root := rt |}
    = Some {| k_pos := p; k_trivia := r; k_open := (k0, cs0 ++ [g]) :: rest;
              k_needs_eof := ne; k_root := rt |} /\
    tokens g = toks /\ shape_of pos g = (sh, p).

Lemma sink_events_app : forall a b s,
  sink_events src (a ++ b) s = bind (sink_events src a s) (sink_events src b).
Proof.
  induction a as [|ev a IH]; intros b s; [reflexivity|]. cbn.
  destruct (sink_event src ev s); cbn; [apply IH|reflexivity].
Qed.

Lemma built_list : forall l, Forall built l -> Forall not_eof (stoks_l l) ->
  forall pos tvs k0 cs0 rest ne rt toks p r,
  emits (stoks_l l) pos tvs toks p r ->
  exists gs,
    sink_events src (flats l) {| k_pos := pos; k_trivia := tvs; k_open := (k0, cs0) :: rest;
                                 k_needs_eof := ne; k_root := rt |}
    = Some {| k_pos := p; k_trivia := r; k_open := (k0, cs0 ++ gs) :: rest;
              k_needs_eof := ne; k_root := rt |} /\
    flat_map tokens gs = toks /\ shapes_of pos gs = (l, p).
Proof.
  induction 1 as [|sh l B F IH]; intros NE pos tvs k0 cs0 rest ne rt toks p r E.
  - inversion E; subst. exists []. rewrite app_nil_r. repeat split; reflexivity.
  - unfold stoks_l in NE, E. cbn [flat_map] in NE, E. apply Forall_app in NE. destruct NE as [N1 N2].
    destruct (emits_app _ _ _ _ _ _ _ E) as (t1 & t2 & p1 & r1 & -> & E1 & E2).
    destruct (B N1 pos tvs k0 cs0 rest ne rt _ _ _ E1) as (g & S1 & T1 & H1).
    destruct (IH N2 p1 r1 k0 (cs0 ++ [g]) rest ne rt _ _ _ E2) as (gs & S2 & T2 & H2).
    exists (g :: gs). unfold flats. cbn [flat_map]. rewrite sink_events_app, S1. cbn [bind].
    fold (flats l). rewrite S2, <- app_assoc. cbn [app flat_map shapes_of].
    rewrite T1, T2, H1, H2. repeat split; reflexivity.
Qed.

Lemma built_all : forall sh, built sh.
Proof.
  induction sh as [k s e|k cs IH] using shape_ind'; intros NE pos tvs k0 cs0 rest ne rt toks p r E.
  - cbn [stoks] in E. inversion E as [|? ? ? ? ? ? ? ? ? ? ? ? EM OR PE EN]; subst.
    inversion EN; subst. exists (GTok t). cbn [flat sink_events sink_event].
    rewrite do_token_emit. cbn [k_pos k_trivia k_open k_needs_eof k_root]. rewrite EM. cbn [bind add_child].
    assert (K : kind_eqb k EOF = false).
    { inversion NE; subst. apply kind_eqb_neq. assumption. }
    rewrite K. cbn [negb]. rewrite andb_true_r. repeat split.
    cbn [shape_of]. rewrite OR, (emit1_kind _ _ _ _ _ _ _ EM). reflexivity.
  - cbn [stoks] in NE, E.
    destruct (built_list cs IH NE pos tvs k [] ((k0, cs0) :: rest) ne rt _ _ _ E)
      as (gs & S & T & H).
    exists (GNode k gs). cbn [flat sink_events sink_event bind k_pos k_trivia k_open k_needs_eof k_root].
    rewrite sink_events_app. unfold flats in S. rewrite S.
    cbn [bind sink_events sink_event k_open length Nat.eqb andb add_child app k_pos k_trivia
         k_needs_eof k_root].
    repeat split; [exact T|].
    rewrite shape_of_node, H. reflexivity.
Qed.

(** ** Emitting the tokens described by [parts] *)
Definition lens (xs : list (tkind * text)) : list (tkind * nat) :=
  map (fun p => (fst p, blen (snd p))) xs.

Definition stops (tr : bool) (pos : nat) (r : list trivia) : Prop :=
  match r with [] => True | tv :: _ => tv_trailing tv <> tr \/ tv_start tv <> pos end.

Lemma eat_place : forall tr xs pos r, stops tr (pos + blen (pieces_text xs)) r ->
  eat_trivia tr pos (map tv_of (place tr pos xs) ++ r)
  = (lens xs, pos + blen (pieces_text xs), r).
Proof.
  induction xs as [|[k x] xs IH]; intros pos r S.
  - cbn [place map app lens pieces_text flat_map blen] in *. rewrite Nat.add_0_r in *.
    destruct r as [|tv r]; [reflexivity|]. cbn in S. cbn [eat_trivia].
    destruct (Bool.eqb (tv_trailing tv) tr) eqn:E; [|reflexivity].
    apply eqb_prop in E. destruct S as [S|S]; [contradiction|].
    destruct (pos =? tv_start tv) eqn:E2; [apply Nat.eqb_eq in E2; congruence|reflexivity].
  - rewrite pieces_text_cons, blen_app in *. cbn [place map app eat_trivia].
    set (tv := tv_of {| pl_kind := k; pl_text := x; pl_pos := pos; pl_trailing := tr |}).
    change (tv_trailing tv) with tr. change (tv_start tv) with pos.
    change (tv_end tv) with (pos + blen x).
    rewrite eqb_reflx, Nat.eqb_refl. cbn [andb].
    replace (pos + blen x - pos) with (blen x) by lia.
    rewrite Nat.add_assoc in S. rewrite (IH (pos + blen x) r S).
    unfold piece_of. change (tv_start tv) with pos. change (tv_end tv) with (pos + blen x).
    rewrite Nat.add_assoc.
    replace (pos + blen x - pos) with (blen x) by lia. reflexivity.
Qed.

Lemma place_ge : forall tr xs pos, Forall (fun p => pos <= pl_pos p) (place tr pos xs).
Proof.
  induction xs as [|[k x] xs IH]; intro pos; cbn; constructor; cbn; [lia|].
  eapply Forall_impl; [|apply IH]. cbn. intros; lia.
Qed.

Lemma placed_ge : forall ps pos, Forall (fun p => pos <= pl_pos p) (placed_trivia pos ps).
Proof.
  induction ps as [|p ps IH]; intro pos; cbn; [constructor|].
  repeat (apply Forall_app; split); eapply Forall_impl; try apply place_ge; try apply IH;
    cbn; intros; lia.
Qed.

Lemma stops_gt : forall tr pos q l, pos < q -> Forall (fun p => q <= pl_pos p) l ->
  stops tr pos (map tv_of l).
Proof.
  intros tr pos q [|p l] H F; [exact I|]. inversion F; subst. cbn. right. lia.
Qed.

Lemma cut_lens : forall xs r, cut (lens xs) (pieces_text xs ++ r) = Some (xs, r).
Proof.
  induction xs as [|[k x] xs IH]; intro r; [reflexivity|].
  rewrite pieces_text_cons, <- app_assoc. cbn. rewrite split_at_app. fold (lens xs). rewrite IH. reflexivity.
Qed.

Lemma total_lens : forall xs, total (lens xs) = blen (pieces_text xs).
Proof.
  induction xs as [|[k x] xs IH]; [reflexivity|]. rewrite pieces_text_cons, blen_app, <- IH. reflexivity.
Qed.

Definition tok_of (p : parts) : tok :=
  {| tk_kind := p_kind p; tk_text := parts_text p; tk_leading := lens (p_leading p);
     tk_trailing := lens (p_trailing p) |}.

Lemma take_apart_of : forall p, take_apart (tok_of p) = Some p.
Proof.
  intros [k l o t]. unfold take_apart, tok_of, parts_text.
  cbn [p_kind p_leading p_own p_trailing tk_kind tk_text tk_leading tk_trailing].
  rewrite cut_lens. rewrite total_lens, blen_app.
  replace (blen o + blen (pieces_text t) - blen (pieces_text t)) with (blen o) by lia.
  rewrite split_at_app.
  replace (pieces_text t) with (pieces_text t ++ []) by apply app_nil_r.
  rewrite cut_lens. reflexivity.
Qed.

Lemma own_range_of : forall p pos,
  own_range pos (tok_of p)
  = (pos + blen (pieces_text (p_leading p)), pos + blen (pieces_text (p_leading p)) + blen (p_own p)).
Proof.
  intros p pos. unfold own_range, tok_of. cbn [tk_kind tk_text tk_leading tk_trailing]. rewrite !total_lens. unfold parts_text.
  rewrite !blen_app. f_equal. lia.
Qed.

Lemma emit_parts : forall ps ks pos pre,
  src = pre ++ flat_map parts_text ps -> blen pre = pos ->
  own_ranges pos ps = ks ++ [(EOF, blen src, blen src)] ->
  Forall (fun x => snd (fst x) < snd x) ks ->
  match ps with [] => True | p :: _ => p_trailing (List.last ps p) = [] end ->
  emits (own_ranges pos ps) pos (map tv_of (placed_trivia pos ps)) (map tok_of ps) (blen src) [].
Proof.
  induction ps as [|p ps IH]; intros ks pos pre Es Ep OW NE LT.
  - destruct ks; discriminate.
  - set (q := pos + blen (parts_text p)).
    assert (SP : blen (parts_text p)
                 = blen (pieces_text (p_leading p)) + blen (p_own p) + blen (pieces_text (p_trailing p))).
    { unfold parts_text. rewrite !blen_app. lia. }
    cbn [flat_map] in Es.
    assert (SL : slice pos q src = Some (parts_text p)).
    { subst q. rewrite <- Ep. eapply slice_mid. exact Es. }
    (* the pieces after the token's own trailing ones do not trail it *)
    assert (ST : stops true q (map tv_of (placed_trivia q ps)) /\
                 stops false (pos + blen (pieces_text (p_leading p)))
                   (map tv_of (place true (pos + blen (pieces_text (p_leading p)) + blen (p_own p))
                                 (p_trailing p)) ++ map tv_of (placed_trivia q ps)) /\
                 (ps = [] -> q = blen src) /\
                 (ps <> [] -> exists ks', own_ranges q ps = ks' ++ [(EOF, blen src, blen src)] /\
                    Forall (fun x => snd (fst x) < snd x) ks')).
    { cbn [own_ranges] in OW. fold q in OW.
      destruct ks as [|x ks].
      - cbn [app] in OW. destruct ps as [|p2 ps]; [|discriminate].
        cbn [List.last] in LT. rewrite LT. cbn. repeat split; auto; [|congruence].
        intros _. subst q. rewrite SP, LT. cbn. injection OW as _ A B. lia.
      - cbn [app] in OW. injection OW as OX OW. apply Forall_cons_iff in NE. destruct NE as [NX NE'].
        rewrite <- OX in NX. cbn [fst snd] in NX.
        assert (PN : ps <> []).
        { intros ->. destruct ks; discriminate. }
        split; [|split; [|split; [congruence|intros _; exists ks; auto]]].
        + destruct ps as [|p2 ps]; [exact I|]. cbn [placed_trivia].
          destruct (p_leading p2) as [|[k2 x2] l2] eqn:EL.
          * cbn [place app pieces_text flat_map blen]. rewrite Nat.add_0_r.
            destruct ks as [|x2 ks].
            -- cbn [app own_ranges] in OW. destruct ps as [|p3 ps]; [|discriminate].
               cbn [List.last] in LT. rewrite LT. exact I.
            -- cbn [app own_ranges] in OW. injection OW as OX2 OW.
               apply Forall_cons_iff in NE'. destruct NE' as [NX2 _].
               rewrite <- OX2 in NX2. cbn [fst snd] in NX2.
               apply (stops_gt true q (q + blen (p_own p2))); [lia|].
               apply Forall_app. split; [apply place_ge|].
               eapply Forall_impl; [|apply placed_ge]. cbn. unfold parts_text.
               rewrite !blen_app. intros; lia.
          * cbn. left. discriminate.
        + destruct (p_trailing p) as [|[k2 x2] l2] eqn:EL; [|cbn; left; discriminate].
          cbn [place map app].
          apply (stops_gt false _ q).
          * subst q. rewrite SP. lia.
          * apply placed_ge. }
    destruct ST as (S1 & S2 & Q0 & QN).
    cbn [own_ranges map placed_trivia]. fold q.
    econstructor.
    + unfold emit1. rewrite !map_app.
      rewrite (eat_place false (p_leading p) pos _ S2).
      replace (pos + blen (pieces_text (p_leading p)) + blen (p_own p)
               + blen (pieces_text (p_trailing p))) with q in * by (subst q; lia).
      rewrite (eat_place true (p_trailing p)).
      2:{ replace (pos + blen (pieces_text (p_leading p)) + blen (p_own p)
               + blen (pieces_text (p_trailing p))) with q by (subst q; lia). exact S1. }
      replace (pos + blen (pieces_text (p_leading p)) + blen (p_own p)
               + blen (pieces_text (p_trailing p))) with q by (subst q; lia).
      rewrite SL. cbn [bind]. reflexivity.
    + apply (own_range_of p pos).
    + reflexivity.
    + destruct ps as [|p2 ps].
      * cbn. rewrite (Q0 eq_refl). constructor.
      * destruct (QN ltac:(discriminate)) as (ks' & OW' & NE').
        apply (IH ks' q (pre ++ parts_text p)); auto.
        -- rewrite Es, <- app_assoc. reflexivity.
        -- rewrite blen_app. subst q. lia.
        -- rewrite <- LT. f_equal. change (List.last (p2 :: ps) p2 = List.last (p2 :: ps) p).
           apply last_default.
Qed.

(** ** The whole of parsing *)
Lemma laid_nonempty : forall ls pos rest, laid pos ls rest = true ->
  Forall (fun x => snd (fst x) < snd x) (token_leaves ls).
Proof.
  induction ls as [|l ls IH]; intros pos rest L; [constructor|].
  cbn [laid] in L. apply andb_prop in L. destruct L as [L1 L].
  destruct (split_at (leaf_start l - pos) rest) as [[g r1]|]; [|discriminate].
  apply andb_prop in L. destruct L as [_ L].
  destruct (split_at (leaf_end l - leaf_start l) r1) as [[x r2]|] eqn:S; [|discriminate].
  apply andb_prop in L. destruct L as [LO L].
  apply split_at_sound in S. destruct S as [_ B].
  unfold leaf_ok in LO. apply andb_prop in LO. destruct LO as [NE _].
  apply negb_true_iff, Nat.eqb_neq in NE.
  destruct l as [k s e|s e]; cbn [token_leaves flat_map app].
  - constructor; [cbn in *; lia|]. apply (IH _ _ L).
  - apply (IH _ _ L).
Qed.

Lemma root_class : class_of R_ROOT = C_root.
Proof. reflexivity. Qed.

Theorem parse_spec : forall t,
  gram_root t = true -> ts_end t = blen src -> laid 0 (leaves t) src = true ->
  exists g ps p,
    parse src false t = Some (g, false) /\
    map take_apart (tokens g) = map Some (p :: ps) /\
    flat_map parts_text (p :: ps) = src /\
    tree_text g = src /\
    (Forall parts_ok (p :: ps) /\ Forall (fun q => comments_on_lines (p_leading q)) ps) /\
    own_ranges 0 (p :: ps) = token_leaves (leaves t) ++ [(EOF, blen src, blen src)] /\
    placed_comments (placed_trivia 0 (p :: ps)) = comment_places src None (leaves t) /\
    fst (shape_of 0 g)
    = SNode R_ROOT [SNode R_EXPRESSION_LIST (became (items (ts_children t)));
                    STok EOF (blen src) (blen src)].
Proof.
  intros [k f s e cs] G EE L. unfold gram_root in G. cbn [ts_kind ts_children ts_end] in *.
  apply andb_prop in G. destruct G as [K G]. apply kind_eqb_eq in K. subst k e.
  cbn [leaves] in *. rewrite root_class in *.
  destruct (leaves_spec src (flat_map leaves cs) 0 [] src [] false false None
              eq_refl eq_refl L ltac:(discriminate) eq_refl)
    as (xt & p & ps & R & T & _ & _ & F & OW & PC & LT & XT & _ & _ & QS).
  specialize (XT eq_refl). subst xt.
  cbn [place app pieces_text flat_map blen Nat.add] in R, T, OW, PC.
  (* the walk *)
  assert (GG : Forall (good src) cs).
  { apply gram_forall; [|exact G]. apply Forall_forall. intros c _. apply walk_gram. }
  assert (TG : stoks_l (became (items cs)) = token_leaves (flat_map leaves cs)).
  { apply became_stoks; [|exact G]. apply Forall_forall. intros c _. apply shapes_tokens_all. }
  assert (NE : Forall not_eof (stoks_l (became (items cs)))).
  { rewrite TG. clear. induction cs as [|c cs IH]; [constructor|]. cbn [flat_map].
    rewrite token_leaves_app. apply Forall_app. split; [apply leaves_not_eof|exact IH]. }
  unfold run_root in R.
  destruct (run_leaves src (flat_map leaves cs) ([], 0, false)) as [[[tv le] b]|] eqn:RL; [|discriminate].
  cbn [bind] in R.
  destruct (slice le (blen src) src) as [gap|] eqn:SG; [|discriminate]. cbn [bind] in R.
  destruct (derive_trivia gap le false) as [dps|] eqn:DG; [|discriminate]. cbn [bind app] in R.
  injection R as R. change (tv ++ dps = map tv_of (placed_trivia 0 (p :: ps))) in R.
  (* the sink *)
  pose proof (emit_parts (p :: ps) (token_leaves (flat_map leaves cs)) 0 [] (eq_sym T) eq_refl OW
                (laid_nonempty _ _ _ L) LT) as EM.
  rewrite OW in EM.
  destruct (emits_app _ _ _ _ _ _ _ EM) as (t1 & t2 & p1 & r1 & ET & E1 & E2).
  rewrite <- TG in E1.
  destruct (built_list (became (items cs)) (proj2 (Forall_forall _ _) (fun x _ => built_all x)) NE
              0 _ R_EXPRESSION_LIST [] [(R_ROOT, [])] true None _ _ _ E1) as (gs & SE & GT & GS).
  destruct (emits_one _ _ _ _ _ _ _ _ E2) as (te & -> & EM2 & OR2).
  subst t1.
  set (g := GNode R_ROOT [GNode R_EXPRESSION_LIST gs; GTok te]).
  assert (TK : tokens g = map tok_of (p :: ps)).
  { rewrite ET. reflexivity. }
  exists g, ps, p.
  assert (TX : tree_text g = src).
  { unfold tree_text. rewrite TK. transitivity (flat_map parts_text (p :: ps)); [|exact T].
    rewrite !flat_map_concat_map, map_map. reflexivity. }
  split; [|split; [|split; [exact T|split; [exact TX|split; [exact (conj F QS)|split; [exact OW|split; [exact PC|]]]]]]].
  - unfold parse. cbn [walk]. rewrite root_class.
    rewrite (walk_all_good src cs GG). unfold upd.
    change (proj (enter R_EXPRESSION_LIST (enter R_ROOT new_walker))) with ([] : list trivia, 0, false).
    rewrite RL. cbn [bind]. unfold handle_root_leave.
    cbn [leave push_event put fst snd w_last_end w_trivia w_events]. rewrite SG. cbn [bind].
    rewrite DG. cbn [bind leave push_event w_events w_trivia w_last_end w_between].
    unfold build_tree. rewrite R.
    cbn [new_walker enter push_event w_events app].
    rewrite <- !app_assoc. cbn [app sink_events sink_event bind k_pos k_trivia k_open k_needs_eof k_root].
    rewrite sink_events_app, SE.
    cbn [bind sink_events sink_event k_open length Nat.eqb andb add_child app k_pos k_trivia k_needs_eof k_root].
    rewrite do_token_emit. cbn [k_pos k_trivia k_open k_needs_eof k_root]. rewrite EM2.
    reflexivity.
  - rewrite TK, map_map. apply map_ext. apply take_apart_of.
  - subst g. rewrite shape_of_node. cbn [shapes_of]. rewrite shape_of_node, GS. cbn [fst snd shape_of].
    rewrite OR2, (emit1_kind _ _ _ _ _ _ _ EM2). reflexivity.
Qed.
End Sink.

(** ** The error path *)
Lemma parse_error : forall src t,
  parse src true t
  = Some (GNode R_ROOT
            [GNode R_EXPRESSION_LIST [GNode R_BOGUS_EXPRESSION
               [GTok {| tk_kind := R_BOGUS; tk_text := src; tk_leading := []; tk_trailing := [] |}]];
             GTok {| tk_kind := EOF; tk_text := []; tk_leading := []; tk_trailing := [] |}], true).
Proof.
  intros src t. unfold parse, build_tree, parse_failure.
  cbn [sink_events sink_event bind k_open k_pos k_trivia k_needs_eof k_root].
  unfold do_token at 1. cbn [eat_trivia k_pos k_trivia k_open k_needs_eof k_root].
  assert (S1 : slice 0 (blen src) src = Some src).
  { pose proof (slice_mid src [] src []) as H. rewrite app_nil_r in H. apply H. reflexivity. }
  rewrite S1. cbn [bind add_child app k_open length Nat.eqb andb k_pos k_trivia k_needs_eof k_root].
  cbn [kind_eqb kind_code N.eqb Pos.eqb negb andb].
  unfold do_token. cbn [eat_trivia k_pos k_trivia k_open k_needs_eof k_root].
  assert (S2 : slice (blen src) (blen src) src = Some []).
  { pose proof (slice_mid src src [] []) as H. rewrite !app_nil_r in H. cbn [blen] in H.
    rewrite Nat.add_0_r in H. apply H. reflexivity. }
  rewrite S2. reflexivity.
Qed.

(** ** Each token's own text *)
Lemma own_texts : forall src ps pos pre, src = pre ++ flat_map parts_text ps -> blen pre = pos ->
  Forall2 (fun p x => slice (snd (fst x)) (snd x) src = Some (p_own p)) ps (own_ranges pos ps).
Proof.
  induction ps as [|p ps IH]; intros pos pre E P; [constructor|]. cbn [own_ranges flat_map] in *.
  constructor.
  - cbn [fst snd].
    replace (pos + blen (pieces_text (p_leading p))) with (blen (pre ++ pieces_text (p_leading p)))
      by (rewrite blen_app; lia).
    apply (slice_mid src (pre ++ pieces_text (p_leading p)) (p_own p)
             (pieces_text (p_trailing p) ++ flat_map parts_text ps)).
    rewrite E. unfold parts_text at 1. rewrite <- !app_assoc. reflexivity.
  - apply (IH _ (pre ++ parts_text p)).
    + rewrite E, <- app_assoc. reflexivity.
    + rewrite blen_app. lia.
Qed.

(** ** Argument lists *)
Definition has_arg (s : list item) : bool := existsb (fun i => kind_eqb (item_kind i) R_ARGUMENT) s.

Lemma filled_slots : forall m b ss last, slots (items m) = (ss, last) ->
  filled b m = match ss with
               | [] => [b || has_arg last]
               | s :: ss' => (b || has_arg (fst s)) :: map (fun s => has_arg (fst s)) ss' ++ [has_arg last]
               end.
Proof.
  induction m as [|c m IH]; intros b ss last H.
  - cbn in H. injection H as <- <-. cbn. rewrite orb_false_r. reflexivity.
  - cbn [items map slots] in H. fold (items m) in H.
    destruct (slots (items m)) as [ss0 last0] eqn:E.
    unfold item_kind in H. cbn [fst snd] in H.
    destruct (kind_eqb (ts_kind c) COMMA) eqn:K.
    + apply kind_eqb_eq in K. injection H as <- <-. cbn [filled]. rewrite K.
      rewrite (IH false _ _ eq_refl). cbn [fst has_arg existsb]. rewrite orb_false_r.
      destruct ss0; reflexivity.
    + assert (F : filled b (c :: m) = filled (b || kind_eqb (ts_kind c) R_ARGUMENT) m).
      { cbn [filled]. destruct (ts_kind c); try discriminate K; cbn; rewrite ?orb_true_r, ?orb_false_r;
          reflexivity. }
      rewrite F, (IH _ _ _ eq_refl).
      destruct ss0 as [|[s cm] ss0]; injection H as <- <-;
        cbn [fst]; unfold has_arg; cbn [existsb]; unfold item_kind at 2; cbn [fst];
        rewrite orb_assoc; reflexivity.
Qed.

(** In each slot there is at most one argument. *)
Definition args_in (s : list item) : nat :=
  List.length (filter (fun i => kind_eqb (item_kind i) R_ARGUMENT) s).

Lemma slots_ok_slots : forall m (b : bool) ss last, slots_ok b m = true -> slots (items m) = (ss, last) ->
  match ss with
  | [] => args_in last + (if b then 1 else 0) <= 1
  | s :: ss' => args_in (fst s) + (if b then 1 else 0) <= 1 /\
                Forall (fun s => args_in (fst s) <= 1) ss' /\ args_in last <= 1
  end.
Proof.
  induction m as [|c m IH]; intros b ss last O H.
  - cbn in H. injection H as <- <-. cbn. destruct b; lia.
  - cbn [items map slots] in H. fold (items m) in H.
    destruct (slots (items m)) as [ss0 last0] eqn:E.
    unfold item_kind in H. cbn [fst snd] in H. cbn [slots_ok] in O.
    destruct (kind_eqb (ts_kind c) COMMA) eqn:K.
    + apply kind_eqb_eq in K. rewrite K in O. specialize (IH false _ _ O eq_refl).
      injection H as <- <-. cbn [fst args_in filter length].
      destruct ss0 as [|s0 ss0].
      * split; [destruct b; cbn; lia|]. split; [constructor|lia].
      * destruct IH as (A & B & C). split; [destruct b; cbn; lia|]. split; [|exact C].
        constructor; [lia|exact B].
    + destruct (kind_eqb (ts_kind c) R_ARGUMENT) eqn:KA.
      * apply kind_eqb_eq in KA. rewrite KA in O. apply andb_prop in O. destruct O as [O1 O].
        apply negb_true_iff in O1. subst b. specialize (IH true _ _ O eq_refl).
        assert (AI : forall s, args_in ((c, shapes c) :: s) = S (args_in s)).
        { intro s. unfold args_in. cbn [filter]. unfold item_kind at 1. cbn [fst]. rewrite KA. reflexivity. }
        destruct ss0 as [|[s cm] ss0]; injection H as <- <-; cbn [fst] in *; rewrite AI.
        -- lia.
        -- destruct IH as (A & B & C). repeat split; auto; lia.
      * assert (O' : slots_ok b m = true).
        { destruct (ts_kind c); try discriminate K; try discriminate KA; exact O. }
        specialize (IH b _ _ O' eq_refl).
        assert (AI : forall s, args_in ((c, shapes c) :: s) = args_in s).
        { intro s. unfold args_in. cbn [filter]. unfold item_kind at 1. cbn [fst]. rewrite KA. reflexivity. }
        destruct ss0 as [|[s cm] ss0]; injection H as <- <-; cbn [fst] in *; rewrite AI; exact IH.
Qed.

(** Nothing but comments becomes nothing. *)
Lemma shapes_nonempty : forall t, gram t = true -> ts_kind t <> COMMENT -> shapes t <> [].
Proof.
  intros [k f s e cs] G K. cbn [gram shapes ts_kind] in *.
  destruct (class_of k) eqn:C; try discriminate.
  exfalso. destruct k; try discriminate C. congruence.
Qed.

Lemma argument_children_nonempty : forall l, became l <> [] -> argument_children l <> [].
Proof.
  induction l as [|i l IH]; intros H; [exact H|]. cbn [argument_children].
  destruct (is_name (fst i)).
  - destruct (name_clause (i :: l)). discriminate.
  - rewrite became_cons in H. intro X. apply app_eq_nil in X. destruct X as [X1 X2].
    rewrite X1 in H. cbn in H. exact (IH H X2).
Qed.

Lemma content_became : forall cs, forallb gram cs = true ->
  existsb (fun d => negb (kind_eqb (ts_kind d) COMMENT)) cs = true -> became (items cs) <> [].
Proof.
  induction cs as [|c cs IH]; intros G H; [discriminate|]. cbn [forallb existsb] in *.
  apply andb_prop in G. destruct G as [G1 G2].
  cbn [items map]. rewrite became_cons. cbn [snd]. fold (items cs).
  intro X. apply app_eq_nil in X. destruct X as [X1 X2].
  apply orb_prop in H. destruct H as [H|H].
  - apply negb_true_iff in H. apply kind_eqb_neq in H. exact (shapes_nonempty c G1 H X1).
  - exact (IH G2 H X2).
Qed.

(** The items of an argument list as the grammar has them. *)
Definition slot_item (i : item) : Prop :=
  exists c, i = (c, shapes c) /\ arguments_item (ts_kind c) = true /\ gram c = true /\
            (ts_kind c = R_ARGUMENT -> has_content c = true).

Lemma argument_shape : forall c, ts_kind c = R_ARGUMENT -> gram c = true -> has_content c = true ->
  exists x, shapes c = [SNode R_ARGUMENT x] /\ x <> [].
Proof.
  intros [k f s e cs] K G H. cbn [ts_kind] in K. subst k. cbn [shapes gram class_of] in *.
  apply andb_prop in G. destruct G as [_ G]. unfold has_content in H. cbn [ts_children] in H.
  exists (argument_children (items cs)). split; [reflexivity|].
  apply argument_children_nonempty, content_became; assumption.
Qed.

Lemma comma_shape : forall c, ts_kind c = COMMA -> gram c = true ->
  exists s e, shapes c = [STok COMMA s e].
Proof.
  intros [k f s e cs] K G. cbn [ts_kind] in K. subst k. cbn. eauto.
Qed.

Definition slot_good (s : list item) : Prop :=
  exists x, slot_shape s = [SNode R_ARGUMENT x] /\ (x = [] <-> has_arg s = false) /\
            became s = (if has_arg s then [SNode R_ARGUMENT x] else []).

Lemma slot_is_good : forall s, Forall (fun i => slot_item i /\ item_kind i <> COMMA) s ->
  args_in s <= 1 -> slot_good s.
Proof.
  intros s F A.
  assert (Z : forall s, Forall (fun i => slot_item i /\ item_kind i <> COMMA) s ->
              args_in s = 0 -> became s = [] /\ has_arg s = false).
  { clear. induction 1 as [|i s [(c & -> & I1 & G & HC) N] F IH]; intro A; [split; reflexivity|].
    unfold item_kind in N. cbn [fst] in N. unfold args_in in A. cbn [filter] in A.
    unfold item_kind at 1 in A. cbn [fst] in A. unfold has_arg. cbn [existsb].
    unfold item_kind at 1. cbn [fst].
    destruct (kind_eqb (ts_kind c) R_ARGUMENT) eqn:K; [discriminate|].
    destruct (IH A) as [B H]. split; [|exact H].
    rewrite became_cons, B. cbn [snd].
    rewrite comment_shapes; [reflexivity|]. destruct (ts_kind c); try discriminate; congruence. }
  unfold slot_good, slot_shape. fold (has_arg s).
  destruct (args_in s) as [|[|n]] eqn:AE; [| |lia].
  - destruct (Z s F AE) as [B H]. rewrite H. exists []. rewrite B. repeat split; auto.
  - assert (X : has_arg s = true /\ exists x, became s = [SNode R_ARGUMENT x] /\ x <> []).
    { clear A. induction F as [|i s [(c & -> & I1 & G & HC) N] F IH]; [discriminate|].
      unfold item_kind in N. cbn [fst] in N. unfold args_in in AE. cbn [filter] in AE.
      unfold item_kind at 1 in AE. cbn [fst] in AE. unfold has_arg. cbn [existsb].
      unfold item_kind at 1. cbn [fst].
      destruct (kind_eqb (ts_kind c) R_ARGUMENT) eqn:K.
      - split; [reflexivity|]. apply kind_eqb_eq in K. cbn [length] in AE. injection AE as AE.
        destruct (Z s F AE) as [B _]. destruct (argument_shape c K G (HC K)) as (x & E & NE).
        exists x. rewrite became_cons, B. cbn [snd]. rewrite E. split; [reflexivity|exact NE].
      - destruct (IH AE) as [H (x & B & NE)]. split; [exact H|]. exists x. split; [|exact NE].
        rewrite became_cons, B. cbn [snd].
        rewrite comment_shapes; [reflexivity|]. destruct (ts_kind c); try discriminate; congruence. }
    destruct X as [H (x & B & NE)]. rewrite H, B. exists x. repeat split; auto; try discriminate.
    contradiction.
Qed.

Lemma slots_commas : forall m ss last, slots (items m) = (ss, last) ->
  Forall slot_item (items m) ->
  Forall (fun s => exists a b, snd s = [STok COMMA a b]) ss /\
  List.length ss = count_kind COMMA m.
Proof.
  induction m as [|c m IH]; intros ss last H F.
  - cbn in H. injection H as <- <-. split; [constructor|reflexivity].
  - cbn [items map slots] in H, F. fold (items m) in H, F.
    apply Forall_cons_iff in F. destruct F as [(c' & E & I1 & G & HC) F].
    injection E as <-.
    destruct (slots (items m)) as [ss0 last0] eqn:S.
    destruct (IH _ _ eq_refl F) as [A B].
    unfold item_kind in H. cbn [fst snd] in H. unfold count_kind. cbn [filter].
    destruct (kind_eqb (ts_kind c) COMMA) eqn:K.
    + injection H as <- <-. apply kind_eqb_eq in K. destruct (comma_shape c K G) as (a & b & E).
      split; [constructor; [cbn; eauto|exact A]|]. cbn [length]. f_equal. exact B.
    + destruct ss0 as [|[s cm] ss0]; injection H as <- <-; split; auto.
      apply Forall_cons_iff in A. destruct A. constructor; assumption.
Qed.

Lemma filled_length : forall m b, List.length (filled b m) = S (count_kind COMMA m).
Proof.
  induction m as [|c m IH]; intro b; [reflexivity|]. unfold count_kind. cbn [filled filter].
  destruct (kind_eqb (ts_kind c) COMMA) eqn:K.
  - apply kind_eqb_eq in K. rewrite K. cbn [length]. rewrite IH. reflexivity.
  - destruct (ts_kind c); try discriminate K; apply IH.
Qed.

Lemma argument_list_spec : forall m,
  Forall slot_item (items m) -> slots_ok false m = true ->
  (count_kind COMMA m = 0 -> argument_list (items m) = flat_map shapes (filter (fun c => kind_eqb (ts_kind c) R_ARGUMENT) m)
                             /\ List.length (argument_list (items m)) <= 1) /\
  (count_kind COMMA m <> 0 ->
     alternating (argument_list (items m)) /\
     map (fun a => negb (is_hole a)) (filter is_argument_shape (argument_list (items m))) = filled false m) /\
  filter (fun a => is_argument_shape a && negb (is_hole a)) (argument_list (items m))
  = flat_map shapes (filter (fun c => kind_eqb (ts_kind c) R_ARGUMENT) m).
Proof.
  intros m F O. unfold argument_list.
  destruct (slots (items m)) as [ss last] eqn:S.
  destruct (slots_commas _ _ _ S F) as [C L].
  pose proof (filled_slots m false _ _ S) as FI.
  pose proof (slots_ok_slots m false _ _ O S) as SO.
  destruct (slots_all _ _ _ _ S F) as [FS FL].
  (* the argument shapes in order *)
  assert (AS : flat_map shapes (filter (fun c => kind_eqb (ts_kind c) R_ARGUMENT) m)
               = flat_map (fun s => became (fst s)) ss ++ became last).
  { clear - F S. revert ss last S. induction m as [|c m IH]; intros ss last S.
    - cbn in S. injection S as <- <-. reflexivity.
    - cbn [items map slots] in S, F. fold (items m) in S, F.
      apply Forall_cons_iff in F. destruct F as [(c' & E & I1 & G & HC) F]. injection E as <-.
      destruct (slots (items m)) as [ss0 last0]. specialize (IH F _ _ eq_refl).
      unfold item_kind in S. cbn [fst snd filter] in *.
      destruct (kind_eqb (ts_kind c) COMMA) eqn:K.
      + injection S as <- <-. apply kind_eqb_eq in K. rewrite K. cbn. exact IH.
      + assert (X : flat_map shapes (if kind_eqb (ts_kind c) R_ARGUMENT
                      then c :: filter (fun c => kind_eqb (ts_kind c) R_ARGUMENT) m
                      else filter (fun c => kind_eqb (ts_kind c) R_ARGUMENT) m)
                    = shapes c ++ flat_map shapes (filter (fun c => kind_eqb (ts_kind c) R_ARGUMENT) m)).
        { destruct (kind_eqb (ts_kind c) R_ARGUMENT) eqn:KA; [reflexivity|].
          rewrite (comment_shapes c); [reflexivity|].
          destruct (ts_kind c); try discriminate; congruence. }
        rewrite X, IH.
        destruct ss0 as [|[s cm] ss0]; injection S as <- <-.
        * cbn [flat_map app]. rewrite became_cons. reflexivity.
        * cbn [flat_map fst]. rewrite became_cons, <- !app_assoc. reflexivity. }
  destruct ss as [|s0 ss].
  - cbn in L. rewrite AS. cbn [flat_map app].
    destruct (slot_is_good last FL ltac:(lia)) as (x & E & HX & B).
    rewrite B in *. repeat split; try congruence.
    + destruct (has_arg last); cbn; lia.
    + destruct (has_arg last) eqn:HA; [|reflexivity]. cbn.
      destruct x; [|reflexivity]. destruct HX as [HX _]. specialize (HX eq_refl). discriminate.
  - destruct SO as (A0 & A1 & A2). rewrite Nat.add_0_r in A0.
    assert (GS : Forall (fun s => slot_good (fst s) /\ exists a b, snd s = [STok COMMA a b]) (s0 :: ss)).
    { assert (A : Forall (fun s : list item * list shape => args_in (fst s) <= 1) (s0 :: ss))
        by (constructor; assumption).
      clear - FS A C. revert FS A C. generalize (s0 :: ss). intros l FS A C.
      induction FS as [|s l F1 FS IH]; [constructor|].
      apply Forall_cons_iff in A, C. destruct A, C.
      constructor; [|apply IH; assumption]. split; [|assumption]. apply slot_is_good; assumption. }
    pose proof (slot_is_good last FL A2) as GL.
    assert (FE : filled false m = map (fun s => has_arg (fst s)) (s0 :: ss) ++ [has_arg last])
      by (rewrite FI; reflexivity).
    rewrite FE, AS. split; [cbn in L; congruence|].
    clear - GS GL. generalize dependent (s0 :: ss). clear s0 ss. intros l GS.
    assert (NH : forall s x, slot_good s -> slot_shape s = [SNode R_ARGUMENT x] ->
                 negb (is_hole (SNode R_ARGUMENT x)) = has_arg s /\
                 filter (fun a => is_argument_shape a && negb (is_hole a)) [SNode R_ARGUMENT x] = became s).
    { intros s x (y & E & HX & B) E2. rewrite E in E2. injection E2 as ->. rewrite B.
      destruct x as [|x0 x]; cbn.
      - destruct HX as [HX _]. rewrite (HX eq_refl). split; reflexivity.
      - destruct (has_arg s) eqn:HA; [split; reflexivity|].
        destruct HX as [_ HX]. specialize (HX eq_refl). discriminate. }
    enough (X : alternating (flat_map (fun s => slot_shape (fst s) ++ snd s) l ++ slot_shape last) /\
      map (fun a => negb (is_hole a)) (filter is_argument_shape
         (flat_map (fun s => slot_shape (fst s) ++ snd s) l ++ slot_shape last))
      = map (fun s => has_arg (fst s)) l ++ [has_arg last] /\
      filter (fun a => is_argument_shape a && negb (is_hole a))
        (flat_map (fun s => slot_shape (fst s) ++ snd s) l ++ slot_shape last)
      = flat_map (fun s => became (fst s)) l ++ became last) by tauto.
    induction GS as [|s l [G1 (a & b & E2)] GS IH].
    + cbn [flat_map map app]. destruct GL as (x & E & HX & B). rewrite E.
      destruct (NH last x ltac:(exists x; auto) E) as [N1 N2].
      split; [constructor|]. split; [|exact N2]. cbn [filter is_argument_shape map]. rewrite N1. reflexivity.
    + destruct IH as (I1 & I2 & I3). cbn [flat_map map]. rewrite E2.
      destruct G1 as (x & E & HX & B). rewrite E.
      destruct (NH (fst s) x ltac:(exists x; auto) E) as [N1 N2].
      cbn [app]. split; [constructor; exact I1|]. split.
      * cbn [filter is_argument_shape map app]. rewrite N1. f_equal. exact I2.
      * rewrite <- app_assoc, <- I3, <- N2. cbn [filter is_argument_shape andb app].
        destruct (negb (is_hole (SNode R_ARGUMENT x))); reflexivity.
Qed.

(** ** Named arguments *)
Lemma named_argument : forall f s e a nm b eq post,
  forallb (fun c => negb (is_name c)) a = true ->
  is_name nm = true -> ts_kind nm <> EQUAL ->
  forallb (fun c => negb (kind_eqb (ts_kind c) EQUAL)) b = true -> ts_kind eq = EQUAL ->
  shapes (TS R_ARGUMENT f s e (a ++ nm :: b ++ eq :: post))
  = [SNode R_ARGUMENT
       (flat_map shapes a
        ++ SNode R_ARGUMENT_NAME_CLAUSE (flat_map shapes (nm :: b ++ [eq]))
        :: flat_map shapes post)].
Proof.
  intros f s e a nm b eq post HA HN NE HB HE. cbn [shapes class_of]. fold (items (a ++ nm :: b ++ eq :: post)).
  f_equal. f_equal.
  assert (BI : forall l, became (items l) = flat_map shapes l).
  { induction l as [|c l IH]; [reflexivity|]. cbn [items map]. rewrite became_cons. fold (items l).
    rewrite IH. reflexivity. }
  assert (NC : forall l, forallb (fun c => negb (kind_eqb (ts_kind c) EQUAL)) l = true ->
               name_clause (items (l ++ eq :: post))
               = (flat_map shapes (l ++ [eq]), flat_map shapes post)).
  { induction l as [|c l IH]; intro H.
    - cbn [app items map name_clause]. unfold item_kind. cbn [fst snd]. rewrite HE.
      cbn [kind_eqb kind_code]. fold (items post). rewrite BI. cbn. rewrite app_nil_r. reflexivity.
    - cbn [forallb] in H. apply andb_prop in H. destruct H as [H1 H2].
      cbn [app items map name_clause]. unfold item_kind at 1. cbn [fst snd].
      apply negb_true_iff in H1. rewrite H1. fold (items (l ++ eq :: post)). rewrite (IH H2). reflexivity. }
  induction a as [|c a IH].
  - cbn [app items map argument_children fst]. rewrite HN.
    change ((nm, shapes nm) :: map (fun c => (c, shapes c)) (b ++ eq :: post))
      with (items ((nm :: b) ++ eq :: post)).
    rewrite NC; [reflexivity|]. cbn [forallb]. rewrite HB, andb_true_r.
    apply negb_true_iff, kind_eqb_neq. exact NE.
  - cbn [forallb] in HA. apply andb_prop in HA. destruct HA as [H1 H2].
    cbn [app items map argument_children fst snd]. apply negb_true_iff in H1. rewrite H1.
    fold (items (a ++ nm :: b ++ eq :: post)). rewrite (IH H2). cbn [flat_map].
    rewrite <- app_assoc. reflexivity.
Qed.

(** ** The property theorems *)
Lemma map_some_inj : forall (A : Type) (a b : list A), map Some a = map Some b -> a = b.
Proof.
  induction a as [|x a IH]; intros [|y b] H; try discriminate; [reflexivity|].
  cbn in H. injection H as -> H. f_equal. apply IH, H.
Qed.

Lemma comment_places_ranges : forall src ls o,
  map fst (comment_places src o ls)
  = flat_map (fun l => match l with LCom s e => [(s, e)] | LTok _ _ _ => [] end) ls.
Proof.
  induction ls as [|[k s e|s e] ls IH]; intro o; [reflexivity|apply IH|].
  cbn [comment_places map flat_map app fst]. f_equal. apply IH.
Qed.

Lemma argument_items_slots : forall m, argument_items m -> Forall slot_item (items m).
Proof.
  intros m [F _]. apply Forall_map. eapply Forall_impl; [|exact F].
  intros c (A & B & C). exists c. auto.
Qed.

Lemma parse_lossless_holds : forall src t, well_parsed src t ->
  exists g, parse src false t = Some (g, false) /\ tree_text g = src.
Proof.
  intros src t (G & E & L). destruct (parse_spec src t G E L) as (g & ps & p & P & _ & _ & T & _).
  eauto.
Qed.

Lemma tokens_and_trivia_holds : forall src t g, well_parsed src t ->
  parse src false t = Some (g, false) ->
  exists ps,
    map take_apart (tokens g) = map Some ps /\
    flat_map parts_text ps = src /\
    own_ranges 0 ps = token_leaves (leaves t) ++ [(EOF, blen src, blen src)] /\
    Forall2 (fun p x => slice (snd (fst x)) (snd x) src = Some (p_own p)) ps (own_ranges 0 ps) /\
    Forall (fun p => forallb piece_ok (p_leading p) = true /\
                     forallb piece_ok (p_trailing p) = true) ps.
Proof.
  intros src t g (G & E & L) P.
  destruct (parse_spec src t G E L) as (g' & ps & p & P' & A & B & _ & O & W & _).
  rewrite P' in P. injection P as ->. exists (p :: ps). repeat split; auto.
  - apply (own_texts src (p :: ps) 0 []); [symmetry; exact B|reflexivity].
  - eapply Forall_impl; [|exact (proj1 O)]. intros q ((H1 & _) & (H2 & _) & _). split; assumption.
Qed.

Lemma comments_kept_holds : forall src t g ps, well_parsed src t ->
  parse src false t = Some (g, false) -> map take_apart (tokens g) = map Some ps ->
  map fst (placed_comments (placed_trivia 0 ps))
  = flat_map (fun l => match l with LCom s e => [(s, e)] | LTok _ _ _ => [] end) (leaves t).
Proof.
  intros src t g ps (G & E & L) P A.
  destruct (parse_spec src t G E L) as (g' & ps' & p & P' & A' & _ & _ & _ & _ & C & _).
  rewrite P' in P. injection P as ->. rewrite A in A'. apply map_some_inj in A'.
  rename A' into EQ.
  rewrite EQ, C. apply comment_places_ranges.
Qed.

Lemma structure_holds : forall src t g, well_parsed src t ->
  parse src false t = Some (g, false) ->
  fst (shape_of 0 g)
  = SNode R_ROOT [SNode R_EXPRESSION_LIST (flat_map shapes (ts_children t));
                  STok EOF (blen src) (blen src)].
Proof.
  intros src t g (G & E & L) P.
  destruct (parse_spec src t G E L) as (g' & ps' & p & P' & _ & _ & _ & _ & _ & _ & S).
  rewrite P' in P. injection P as ->. rewrite S. do 3 f_equal.
  clear. induction (ts_children t) as [|c l IH]; [reflexivity|].
  cbn [items map flat_map]. rewrite became_cons. cbn [snd]. f_equal. exact IH.
Qed.

Lemma error_lossless_holds : forall src t,
  exists g, parse src true t = Some (g, true) /\ tree_text g = src /\
            map take_apart (tokens g)
            = [Some {| p_kind := R_BOGUS; p_leading := []; p_own := src; p_trailing := [] |};
               Some {| p_kind := EOF; p_leading := []; p_own := []; p_trailing := [] |}].
Proof.
  intros src t. rewrite parse_error. eexists. split; [reflexivity|].
  unfold tree_text. cbn [tokens flat_map app tk_text]. rewrite app_nil_r. split; [reflexivity|].
  unfold take_apart. cbn.
  rewrite Nat.sub_0_r. replace src with (src ++ []) at 2 by apply app_nil_r.
  rewrite split_at_app. reflexivity.
Qed.

Lemma trailing_on_line_holds : forall src t g ps, well_parsed src t ->
  parse src false t = Some (g, false) -> map take_apart (tokens g) = map Some ps ->
  Forall (fun p => no_lf (pieces_text (p_trailing p)) = true) ps.
Proof.
  intros src t g ps (G & E & L) P A.
  destruct (parse_spec src t G E L) as (g' & ps' & p & P' & A' & _ & _ & (F & _) & _).
  rewrite P' in P. injection P as ->. rewrite A in A'. apply map_some_inj in A'.
  rename A' into EQ.
  rewrite EQ. eapply Forall_impl; [|exact F]. intros q (_ & _ & H & _). exact H.
Qed.

(** Line breaks in the trivia before tokens. *)
Lemma breaks_holds : forall src t g ps, well_parsed src t ->
  parse src false t = Some (g, false) -> map take_apart (tokens g) = map Some ps ->
  Forall (fun p => whole_breaks (p_leading p)) ps /\
  Forall (fun p => comments_on_lines (p_leading p)) (tl ps) /\
  Forall (fun p => no_newline (p_trailing p)) ps.
Proof.
  intros src t g ps (G & E & L) P A.
  destruct (parse_spec src t G E L) as (g' & ps' & p & P' & A' & _ & _ & (F & Q) & _).
  rewrite P' in P. injection P as ->. rewrite A in A'. apply map_some_inj in A'. subst ps.
  split; [|split; [exact Q|]]; eapply Forall_impl; try exact F.
  - intros q ((_ & H) & _). exact H.
  - intros q (_ & _ & _ & H). exact H.
Qed.

Lemma comment_placement_holds : forall src t g ps, well_parsed src t ->
  parse src false t = Some (g, false) -> map take_apart (tokens g) = map Some ps ->
  placed_comments (placed_trivia 0 ps) = comment_places src None (leaves t).
Proof.
  intros src t g ps (G & E & L) P A.
  destruct (parse_spec src t G E L) as (g' & ps' & p & P' & A' & _ & _ & _ & _ & C & _).
  rewrite P' in P. injection P as ->. rewrite A in A'. apply map_some_inj in A'.
  rename A' into EQ.
  rewrite EQ. exact C.
Qed.

Lemma call_structure_holds : forall k ak f s e pre post f' s' e' o m c,
  class_of k = C_call ak ->
  shapes (TS k f s e (pre ++ TS f' F_arguments s' e' (o :: m ++ [c]) :: post))
  = [SNode k (flat_map (call_child ak) pre
              ++ SNode ak (shapes o ++ SNode R_ARGUMENT_LIST (argument_list (items m)) :: shapes c)
              :: flat_map (call_child ak) post)].
Proof.
  intros k ak f s e pre post f' s' e' o m c K. cbn [shapes]. rewrite K. f_equal. f_equal.
  fold (call_child ak). rewrite flat_map_app. cbn [flat_map]. f_equal.
  cbn [call_child].
  change (map (fun c => (c, shapes c)) (o :: m ++ [c])) with (items (o :: m ++ [c])).
  rewrite wrap_inside_split. unfold call_child. reflexivity.
Qed.

Lemma slots_holds : forall m, argument_items m -> count_kind COMMA m <> 0 ->
  alternating (argument_list (items m)) /\
  map (fun a => negb (is_hole a)) (filter is_argument_shape (argument_list (items m))) = filled false m /\
  List.length (filter is_argument_shape (argument_list (items m))) = S (count_kind COMMA m).
Proof.
  intros m A N. destruct (argument_list_spec m (argument_items_slots m A) (proj2 A)) as (_ & H & _).
  destruct (H N) as [H1 H2]. split; [exact H1|]. split; [exact H2|].
  rewrite <- (filled_length m false), <- H2, map_length. reflexivity.
Qed.

Lemma no_comma_holds : forall m, argument_items m -> count_kind COMMA m = 0 ->
  argument_list (items m) = flat_map shapes (filter (fun c => kind_eqb (ts_kind c) R_ARGUMENT) m) /\
  List.length (argument_list (items m)) <= 1.
Proof.
  intros m A N. destruct (argument_list_spec m (argument_items_slots m A) (proj2 A)) as (H & _ & _).
  exact (H N).
Qed.

Lemma arguments_in_order_holds : forall m, argument_items m ->
  filter (fun a => is_argument_shape a && negb (is_hole a)) (argument_list (items m))
  = flat_map shapes (filter (fun c => kind_eqb (ts_kind c) R_ARGUMENT) m).
Proof.
  intros m A. destruct (argument_list_spec m (argument_items_slots m A) (proj2 A)) as (_ & _ & H).
  exact H.
Qed.

