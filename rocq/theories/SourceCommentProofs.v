(** Where the comments of the typed tree stand in the source. *)
From Coq Require Import List Arith Bool NArith Lia.
From Verif Require Import Text TextFacts SettingsModel SyntaxKind ParseModel ParseSpec
  ParseProofs ParseTree FmtTree FmtSpec CommentsModel CommentsSpec CommentsProofs AstModel AstReads
  AstProofs FrontProofs SourceSpec SourceProofs.
Import ListNotations.

(** * Decorated comments *)

(** The trivia between the tokens [a] and the token [x]. *)
Definition gap_of (a : list parts) (x : parts) : list (tkind * text) :=
  match rev a with y :: _ => p_trailing y | [] => [] end ++ p_leading x.
Definition newline_among (u : list (tkind * text)) : bool :=
  existsb (fun p => tkind_eqb (fst p) Newline) u.
Fixpoint lines_since (n : nat) (u : list (tkind * text)) : nat :=
  match u with
  | [] => n
  | (Comment, _) :: r => lines_since 0 r
  | (Newline, _) :: r => lines_since (S n) r
  | (Whitespace, _) :: r => lines_since n r
  end.
(** What the walk notes of a comment, the nodes around it aside. *)
Definition decorated_at (toks : list parts) (d : decorated) : Prop :=
  exists a x b u w, toks = a ++ x :: b /\ d_gap d = List.length a /\
    gap_of a x = u ++ (Comment, d_text d) :: w /\
    d_before d = lines_since 0 u /\ d_after d = lines_to_comment w /\
    d_own d = match a with [] => true | _ => newline_among u end.

Lemma decorate_spec gap encl prec next ps : forall own lines d,
  In d (decorate gap encl prec next own lines ps) ->
  exists u w, ps = u ++ (Comment, d_text d) :: w /\ d_gap d = gap /\
    d_before d = lines_since lines u /\ d_after d = lines_to_comment w /\
    d_own d = own || newline_among u.
Proof.
  induction ps as [|[k x] r IH]; intros own lines d H; [destruct H|].
  destruct k; cbn [decorate] in H.
  - destruct (IH _ _ _ H) as [u [w [E1 [E2 [E3 [E4 E5]]]]]].
    exists ((Whitespace, x) :: u), w. rewrite E1. auto 10.
  - destruct (IH _ _ _ H) as [u [w [E1 [E2 [E3 [E4 E5]]]]]].
    exists ((Newline, x) :: u), w. rewrite E1. repeat split; auto.
    rewrite E5. cbn. rewrite orb_true_r. reflexivity.
  - destruct H as [<-|H].
    + exists [], r. cbn. rewrite orb_false_r. auto.
    + destruct (IH _ _ _ H) as [u [w [E1 [E2 [E3 [E4 E5]]]]]].
      exists ((Comment, x) :: u), w. rewrite E1. auto 10.
Qed.

Lemma add_comment_is root d : pt_comment (add_comment root d) = d.
Proof.
  unfold add_comment. destruct (match place_comment root d with Some x => x | None => _ end).
  reflexivity.
Qed.
Lemma decorated_more toks more d : decorated_at toks d -> decorated_at (toks ++ more) d.
Proof.
  intros (a & x & b & u & w & E & R). exists a, x, (b ++ more), u, w. rewrite E, <- app_assoc. auto.
Qed.

Section Walk.
Variable root : syn.
Variable rf : bool.

Definition noted (toks : list parts) (v : visitor) : Prop :=
  v_count v = List.length toks /\
  v_last v = match rev toks with y :: _ => Some (p_trailing y) | [] => None end /\
  Forall (decorated_at toks) (v_pending v) /\
  Forall (fun q => decorated_at toks (pt_comment q)) (v_placed v).

Lemma noted_flush f toks v : noted toks v -> noted toks (flush root f v).
Proof.
  intros (A & B & C & D). repeat split; auto; cbn; [constructor|].
  apply Forall_app. split; [exact D|]. apply Forall_map. eapply Forall_impl; [|exact C].
  intros d H. rewrite add_comment_is. exact H.
Qed.
Lemma noted_enter p toks v : noted toks v -> noted toks (enter root p v).
Proof.
  intros N. pose proof (noted_flush (Some p) toks v N) as F. unfold enter.
  destruct (v_following v) as [[|i]|]; [exact F|exact N|exact F].
Qed.
Lemma noted_leave p toks v : noted toks v -> noted toks (leave root p v).
Proof.
  intros N. exact (noted_flush None toks (set_following None (set_parents (removelast (v_parents v)) v)) N).
Qed.
Lemma noted_token x toks v : noted toks v -> noted (toks ++ [x]) (visit_token root rf x v).
Proof.
  intros (A & B & C & D). unfold visit_token. set (v1 := {| v_pending := _ |}).
  assert (N : noted (toks ++ [x]) v1).
  { unfold noted, v1. cbn [v_count v_last v_pending v_placed].
    rewrite app_length, rev_app_distr, A. cbn [List.length rev app]. split; [lia|]. split; [reflexivity|].
    split.
    - apply Forall_app. split; [eapply Forall_impl; [|exact C]; intros d; apply decorated_more|].
      apply Forall_forall. intros d H.
      destruct (decorate_spec _ _ _ _ _ _ _ _ H) as [u [w [E1 [E2 [E3 [E4 E5]]]]]].
      exists toks, x, [], u, w. split; [reflexivity|]. split; [exact E2|]. split.
      + rewrite <- E1. unfold gap_of. rewrite B. destruct (rev toks); reflexivity.
      + split; [exact E3|]. split; [exact E4|]. rewrite E5, B.
        destruct toks as [|y r]; [reflexivity|].
        destruct (rev (y :: r)) as [|? ?] eqn:R; [|reflexivity].
        apply (f_equal (@List.length _)) in R. rewrite rev_length in R. discriminate R.
    - eapply Forall_impl; [|exact D]. intros d. apply decorated_more. }
  clearbody v1. destruct (v_following v) as [i|]; [|exact N].
  exact (noted_flush _ _ v1 N).
Qed.
Lemma noted_visit t : forall p toks v, noted toks v -> noted (toks ++ syn_tokens t) (visit root rf p t v).
Proof.
  induction t as [k cs IH|x] using syn_ind'; intros p toks v N.
  - assert (A : forall i toks v, noted toks v ->
      noted (toks ++ flat_map syn_tokens cs) (visit_all root rf p i cs v)).
    { induction IH as [|c r Hc _ IHr]; intros i qs w M; cbn [visit_all flat_map].
      - rewrite app_nil_r. exact M.
      - rewrite app_assoc. apply IHr, Hc, M. }
    rewrite visit_node. cbn [syn_tokens]. destruct (is_list k); [apply A, N|].
    apply noted_leave, A, noted_enter, N.
  - apply noted_token, N.
Qed.
End Walk.

Theorem attached_decorated root rf ps z : syn_tokens root = ps ++ [z] -> p_trailing z = [] ->
  Forall (fun q => decorated_at (ps ++ [z]) (pt_comment q)) (attached root rf).
Proof.
  intros E Z. unfold attached, finish.
  assert (N : noted (ps ++ [z]) (visit root rf [] root new_visitor)).
  { rewrite <- E. apply (noted_visit root rf root [] [] new_visitor). repeat split; constructor. }
  destruct N as (_ & B & _ & D). rewrite B, rev_app_distr. cbn [rev app]. rewrite Z. cbn [decorate map].
  rewrite app_nil_r. exact D.
Qed.

(** * Pieces *)

Lemma trivia_leaves_app u : forall pos w,
  trivia_leaves pos (u ++ w) = trivia_leaves pos u ++ trivia_leaves (pos + blen (pieces_text u)) w.
Proof.
  induction u as [|[k x] r IH]; intros pos w.
  - cbn. rewrite Nat.add_0_r. reflexivity.
  - cbn [app trivia_leaves]. rewrite pieces_text_cons, blen_app, Nat.add_assoc, IH.
    destruct k; reflexivity.
Qed.
Lemma lines_since_app u w : forall n, lines_since n (u ++ w) = lines_since (lines_since n u) w.
Proof. induction u as [|[[] x] r IH]; intros n; cbn [app lines_since]; auto. Qed.
Definition newlines (u : list (tkind * text)) : nat :=
  List.length (filter (fun p => tkind_eqb (fst p) Newline) u).
Lemma newlines_app u w : newlines (u ++ w) = newlines u + newlines w.
Proof. unfold newlines. rewrite filter_app, app_length. reflexivity. Qed.
Lemma lf_count_app x y : lf_count (x ++ y) = lf_count x + lf_count y.
Proof. unfold lf_count. rewrite filter_app, app_length. reflexivity. Qed.
Lemma no_lf_count x : no_lf x = true -> lf_count x = 0.
Proof.
  induction x as [|c x IH]; intros N; [reflexivity|]. unfold no_lf in N. cbn [forallb] in N.
  apply andb_prop in N as [N1 N]. apply negb_true_iff in N1. unfold lf_count. cbn [filter]. rewrite N1.
  exact (IH N).
Qed.
Lemma newlines_lf u : forallb piece_ok u = true -> Forall (fun p => fst p = Newline -> In LF (snd p)) u ->
  Forall (fun p => fst p <> Comment) u -> newlines u = lf_count (pieces_text u).
Proof.
  induction u as [|[k x] r IH]; intros P F C; [reflexivity|].
  cbn [forallb] in P. apply andb_prop in P as [P1 P].
  pose proof (Forall_inv F) as F1. apply Forall_inv_tail in F.
  pose proof (Forall_inv C) as C1. apply Forall_inv_tail in C. cbn [fst snd] in F1, C1.
  rewrite pieces_text_cons, lf_count_app, <- (IH P F C).
  destruct k; [|destruct (newline_piece x P1 (F1 eq_refl)) as [-> | ->]; reflexivity|congruence].
  rewrite (no_lf_count x (proj1 (white_piece x P1))). reflexivity.
Qed.

(** The pieces since the last comment, and those up to the next one. *)
Lemma since_comment B pos u : last_stop B = pos ->
  exists u1 u2, u = u1 ++ u2 /\ Forall (fun p => fst p <> Comment) u2 /\
    last_stop (B ++ trivia_leaves pos u) = pos + blen (pieces_text u1) /\ lines_since 0 u = newlines u2.
Proof.
  intros E. induction u as [|[k x] u IH] using rev_ind.
  - exists [], []. cbn. rewrite app_nil_r, Nat.add_0_r. repeat split; auto.
  - destruct IH as [u1 [u2 [-> [C [L N]]]]].
    rewrite trivia_leaves_app, lines_since_app. cbn [trivia_leaves lines_since].
    destruct k.
    + exists u1, (u2 ++ [(Whitespace, x)]). rewrite app_nil_r, app_assoc. repeat split; auto.
      * apply Forall_app. split; [exact C|]. constructor; [discriminate|constructor].
      * rewrite newlines_app, N. change (newlines [(Whitespace, x)]) with 0. lia.
    + exists u1, (u2 ++ [(Newline, x)]). rewrite app_nil_r, app_assoc. repeat split; auto.
      * apply Forall_app. split; [exact C|]. constructor; [discriminate|constructor].
      * rewrite newlines_app, N. change (newlines [(Newline, x)]) with 1. lia.
    + exists ((u1 ++ u2) ++ [(Comment, x)]), []. rewrite app_nil_r. repeat split; auto.
      rewrite app_assoc. unfold last_stop. rewrite fold_left_app. cbn [app fold_left leaf_end].
      rewrite (pieces_text_app (u1 ++ u2) [(Comment, x)]), pieces_text_cons, !blen_app. cbn [pieces_text flat_map blen]. lia.
Qed.
Lemma to_comment src A w : forall pos, next_start src A = pos + blen (pieces_text w) ->
  exists w1 w2, w = w1 ++ w2 /\ Forall (fun p => fst p <> Comment) w1 /\
    next_start src (trivia_leaves pos w ++ A) = pos + blen (pieces_text w1) /\ lines_to_comment w = newlines w1.
Proof.
  induction w as [|[k x] r IH]; intros pos E.
  - exists [], []. repeat split; auto.
  - rewrite pieces_text_cons, blen_app, Nat.add_assoc in E. cbn [trivia_leaves lines_to_comment].
    destruct k.
    + destruct (IH _ E) as [w1 [w2 [-> [C [L N]]]]]. exists ((Whitespace, x) :: w1), w2.
      rewrite pieces_text_cons, blen_app, Nat.add_assoc. repeat split; auto.
      constructor; [discriminate|exact C].
    + destruct (IH _ E) as [w1 [w2 [-> [C [L N]]]]]. exists ((Newline, x) :: w1), w2.
      rewrite pieces_text_cons, blen_app, Nat.add_assoc. repeat split; auto.
      * constructor; [discriminate|exact C].
      * rewrite N. reflexivity.
    + exists [], ((Comment, x) :: r). cbn. rewrite Nat.add_0_r. repeat split; auto.
Qed.
Lemma next_token_trivia src A u : forall pos, next_token src (trivia_leaves pos u ++ A) = next_token src A.
Proof. induction u as [|[[] x] r IH]; intros pos; cbn [trivia_leaves app]; auto. apply IH. Qed.

Lemma parts_len y : blen (parts_text y) =
  blen (pieces_text (p_leading y)) + blen (p_own y) + blen (pieces_text (p_trailing y)).
Proof. unfold parts_text. rewrite !blen_app. lia. Qed.

Section Tokens.
Variables (src : text) (t : ts) (ps : list parts) (z : parts).
Hypothesis Whole : flat_map parts_text (ps ++ [z]) = src.
Hypothesis Own : own_ranges 0 (ps ++ [z]) = token_leaves (leaves t) ++ [(EOF, blen src, blen src)].
Hypothesis Slices : Forall2 (fun p x => slice (snd (fst x)) (snd x) src = Some (p_own p))
  (ps ++ [z]) (own_ranges 0 (ps ++ [z])).
Hypothesis Pieces : Forall (fun p => forallb piece_ok (p_leading p) = true /\
  forallb piece_ok (p_trailing p) = true) (ps ++ [z]).
Hypothesis Laid : laid 0 (leaves t) src = true.
Hypothesis Comments : placed_comments (placed_trivia 0 (ps ++ [z])) = comment_places src None (leaves t).
Hypothesis Breaks : Forall (fun p => whole_breaks (p_leading p)) (ps ++ [z]).
Hypothesis Silent : Forall (fun p => no_newline (p_trailing p)) (ps ++ [z]).

Lemma leaves_all : exists k n, leaves t ++ [LTok k (blen src) n] = parts_leaves 0 (ps ++ [z]).
Proof.
  destruct (end_of_file src t ps z Whole Own Pieces) as [E T].
  rewrite (leaves_parts src t ps z Whole Own Pieces Laid Comments), parts_leaves_app.
  cbn [parts_leaves Nat.add]. unfold part_leaves. rewrite T. cbn [trivia_leaves]. rewrite !app_nil_r.
  do 2 eexists. rewrite <- app_assoc. f_equal. f_equal. unfold own_leaf. rewrite E. reflexivity.
Qed.

(** The leaves before a token. *)
Lemma gap_leaves a x b : ps ++ [z] = a ++ x :: b ->
  exists B A pos pre post, leaves t = B ++ trivia_leaves pos (gap_of a x) ++ A /\
    List.length (token_leaves B) = List.length a /\ last_end B = pos /\ last_stop B = pos /\
    next_start src A = pos + blen (pieces_text (gap_of a x)) /\
    next_token src A = pos + blen (pieces_text (gap_of a x)) /\
    src = pre ++ pieces_text (gap_of a x) ++ post /\ blen pre = pos /\
    (B = [] \/ exists B' k s f, B = B' ++ [LTok k s f]) /\
    (A = [] \/ exists k s f A', A = LTok k s f :: A').
Proof.
  intros E. destruct leaves_all as [k [n LA]]. rewrite E, parts_leaves_app in LA.
  cbn [parts_leaves Nat.add] in LA. set (q := blen (flat_map parts_text a)) in *.
  unfold part_leaves at 1 in LA.
  assert (LenR : forall l i, List.length (own_ranges i l) = List.length l).
  { clear. induction l; intros i; cbn; auto. }
  assert (HA : forall B pos, leaves t ++ [LTok k (blen src) n] =
      (B ++ trivia_leaves pos (gap_of a x)) ++ own_leaf q x :: (trivia_leaves (own_end q x) (p_trailing x) ++
        parts_leaves (q + blen (parts_text x)) b) ->
    own_start q x = pos + blen (pieces_text (gap_of a x)) ->
    exists A, leaves t = B ++ trivia_leaves pos (gap_of a x) ++ A /\
      next_start src A = pos + blen (pieces_text (gap_of a x)) /\
      next_token src A = pos + blen (pieces_text (gap_of a x)) /\
      (A = [] \/ exists k s f A', A = LTok k s f :: A')).
  { intros B pos H S. set (R := _ ++ parts_leaves _ b) in H.
    destruct (exists_last' R) as [-> |[R' [l ->]]].
    - change (B ++ trivia_leaves pos (gap_of a x)) with (B ++ trivia_leaves pos (gap_of a x)) in H.
      apply app_inj_tail in H as [H H']. exists []. rewrite app_nil_r. split; [exact H|].
      unfold own_leaf in H'. injection H' as _ H' _. cbn [next_start next_token]. rewrite H', S. auto.
    - rewrite app_comm_cons, app_assoc in H. apply app_inj_tail in H as [H _].
      exists (own_leaf q x :: R'). rewrite app_assoc. split; [exact H|]. unfold own_leaf.
      cbn [next_start next_token leaf_start]. rewrite S. eauto 10. }
  destruct (exists_last' a) as [Ea|[a' [y Ea]]].
  - subst a. destruct (HA [] 0) as [A [H1 [H2 [H3 H4]]]].
    + unfold gap_of. cbn [rev app]. rewrite LA. cbn [parts_leaves app]. unfold q. cbn [flat_map blen].
      rewrite <- app_assoc. reflexivity.
    + reflexivity.
    + exists [], A, 0, [], (p_own x ++ pieces_text (p_trailing x) ++ flat_map parts_text b).
      repeat split; auto. rewrite <- Whole, E. unfold gap_of. cbn [rev app flat_map].
      unfold parts_text at 1. rewrite <- !app_assoc. reflexivity.
  - assert (G : gap_of a x = p_trailing y ++ p_leading x).
    { unfold gap_of. rewrite Ea, rev_app_distr. reflexivity. }
    set (q' := blen (flat_map parts_text a')).
    assert (Q : own_end q' y + blen (pieces_text (p_trailing y)) = q).
    { unfold own_end, own_start, q, q'. rewrite Ea, flat_map_app, blen_app. cbn [flat_map].
      rewrite app_nil_r, parts_len. lia. }
    set (B := parts_leaves 0 a' ++ trivia_leaves q' (p_leading y) ++ [own_leaf q' y]).
    destruct (HA B (own_end q' y)) as [A [H1 [H2 [H3 H4]]]].
    + rewrite LA, G, trivia_leaves_app, Q. unfold B. rewrite Ea, parts_leaves_app.
      cbn [parts_leaves Nat.add]. fold q'. unfold part_leaves. rewrite app_nil_r, <- !app_assoc.
      cbn [app]. reflexivity.
    + rewrite G, pieces_text_app, blen_app. unfold own_start. lia.
    + assert (TB : token_leaves B = own_ranges 0 a).
      { unfold B. rewrite !token_leaves_app, parts_tokens, trivia_tokens, Ea, own_ranges_app. reflexivity. }
      exists B, A, (own_end q' y), (flat_map parts_text a' ++ pieces_text (p_leading y) ++ p_own y),
        (p_own x ++ pieces_text (p_trailing x) ++ flat_map parts_text b).
      split; [exact H1|]. split; [rewrite TB; apply LenR|]. split; [|split; [|split; [exact H2|split; [exact H3|split; [|split; [|split; [right; unfold B, own_leaf; rewrite app_assoc; eauto 10|exact H4]]]]]]].
      * unfold last_end, B. rewrite app_assoc, fold_left_app. reflexivity.
      * unfold last_stop, B. rewrite app_assoc, fold_left_app. reflexivity.
      * rewrite <- Whole, E, G, Ea, flat_map_app, flat_map_app, pieces_text_app. cbn [flat_map].
        unfold parts_text at 2 3. rewrite <- ?app_assoc. cbn [app]. rewrite <- ?app_assoc. reflexivity.
      * rewrite !blen_app. unfold own_end, own_start, q'. lia.
Qed.

Lemma whole_gap a x b : ps ++ [z] = a ++ x :: b -> cr_paired (pieces_text (gap_of a x)) ->
  Forall (fun p => fst p = Newline -> In LF (snd p)) (gap_of a x).
Proof.
  intros E C. unfold gap_of in *. rewrite pieces_text_app in C. apply Forall_app. split.
  - destruct (exists_last' a) as [-> |[a' [y ->]]]; [constructor|]. rewrite rev_app_distr. cbn [rev app].
    assert (I : In y (ps ++ [z])).
    { rewrite E, <- app_assoc. apply in_or_app. right. left. reflexivity. }
    eapply Forall_impl; [|exact (proj1 (Forall_forall _ _) Silent y I)].
    intros p N K. destruct (N K).
  - assert (I : In x (ps ++ [z])) by (rewrite E; apply in_or_app; right; left; reflexivity).
    exact (proj1 (Forall_forall _ _) Breaks x I (cr_right _ _ C)).
Qed.
Lemma gap_ok a x b : ps ++ [z] = a ++ x :: b -> forallb piece_ok (gap_of a x) = true.
Proof.
  intros E. unfold gap_of. rewrite forallb_app. apply andb_true_intro. split.
  - destruct (exists_last' a) as [-> |[a' [y ->]]]; [reflexivity|]. rewrite rev_app_distr. cbn [rev app].
    assert (I : In y (ps ++ [z])).
    { rewrite E, <- app_assoc. apply in_or_app. right. left. reflexivity. }
    exact (proj2 (proj1 (Forall_forall _ _) Pieces y I)).
  - assert (I : In x (ps ++ [z])) by (rewrite E; apply in_or_app; right; left; reflexivity).
    exact (proj1 (proj1 (Forall_forall _ _) Pieces x I)).
Qed.

Lemma commented d : decorated_at (ps ++ [z]) d ->
  exists before s f after, leaves t = before ++ LCom s f :: after /\
    List.length (token_leaves before) = d_gap d /\
    comment_spot src t (d_text d) (d_before d) (d_after d) s f /\
    (exists gap x, slice (last_end before) (next_token src after) src = Some gap /\
       slice (last_end before) s src = Some x /\
       (cr_paired gap -> d_own d = true <-> no_token before = true \/ In LF x)).
Proof.
  intros (a & x & b & u & w & E & Eg & G & Eb & Ea & Eo).
  destruct (gap_leaves a x b E) as (B & A & pos & pre & post & L & LB & EB & SB & NA & TA & S & P & _).
  pose proof (gap_ok a x b E) as OK. pose proof (whole_gap a x b E) as WG.
  rewrite G in *. rewrite trivia_leaves_app in L. cbn [trivia_leaves] in L.
  set (s := pos + blen (pieces_text u)) in *. set (f := s + blen (d_text d)) in *.
  rewrite pieces_text_app, pieces_text_cons, !blen_app in NA, TA.
  rewrite pieces_text_app, pieces_text_cons in S.
  destruct (since_comment B pos u SB) as (u1 & u2 & Eu & Cu & Lu & Nu).
  destruct (to_comment src A w f) as (w1 & w2 & Ew & Cw & Lw & Nw); [unfold f, s; lia|].
  assert (EL : leaves t = (B ++ trivia_leaves pos u) ++ LCom s f :: (trivia_leaves f w ++ A)).
  { rewrite L, <- !app_assoc. reflexivity. }
  exists (B ++ trivia_leaves pos u), s, f, (trivia_leaves f w ++ A).
  assert (LE : last_end (B ++ trivia_leaves pos u) = pos).
  { rewrite <- EB. unfold last_end. rewrite !last_end_leaves, token_leaves_app, trivia_tokens, app_nil_r.
    reflexivity. }
  split; [exact EL|]. split; [|split].
  - rewrite token_leaves_app, trivia_tokens, app_nil_r, LB. auto.
  - exists (B ++ trivia_leaves pos u), (trivia_leaves f w ++ A),
      (pieces_text u ++ d_text d ++ pieces_text w), (pieces_text u2), (pieces_text w1).
    split; [exact EL|]. rewrite LE, Lu, Lw, next_token_trivia, TA.
    split; [|split; [|split; [|split]]].
    + pose proof (slice_mid src (pre ++ pieces_text u) (d_text d) (pieces_text w ++ post)) as M.
      rewrite blen_app, P in M. fold s f in M. apply M. rewrite S, <- !app_assoc. reflexivity.
    + pose proof (slice_mid src pre (pieces_text u ++ d_text d ++ pieces_text w) post) as M.
      rewrite P, !blen_app in M. apply M. rewrite S. reflexivity.
    + rewrite Eu, pieces_text_app in S.
      pose proof (slice_mid src (pre ++ pieces_text u1) (pieces_text u2) (d_text d ++ pieces_text w ++ post)) as M.
      rewrite blen_app, P in M. etransitivity; [|apply M; rewrite S, <- !app_assoc; reflexivity].
      f_equal. unfold s. rewrite Eu, pieces_text_app, blen_app. lia.
    + rewrite Ew, pieces_text_app in S.
      pose proof (slice_mid src (pre ++ pieces_text u ++ d_text d) (pieces_text w1) (pieces_text w2 ++ post)) as M.
      rewrite !blen_app, P in M. etransitivity; [|apply M; rewrite S, <- !app_assoc; reflexivity].
      f_equal; unfold f, s; lia.
    + intros CP. rewrite pieces_text_app, pieces_text_cons in WG. specialize (WG CP).
      apply Forall_app in WG as [WU WW]. apply Forall_inv_tail in WW.
      rewrite forallb_app in OK. apply andb_prop in OK as [OU OW]. cbn [forallb] in OW.
      apply andb_prop in OW as [_ OW].
      rewrite Eu in WU, OU. rewrite Ew in WW, OW.
      apply Forall_app in WU as [_ WU], WW as [WW _].
      rewrite forallb_app in OU, OW. apply andb_prop in OU as [_ OU], OW as [OW _].
      rewrite Eb, Nu, Ea, Nw. split; [exact (newlines_lf _ OU WU Cu)|exact (newlines_lf _ OW WW Cw)].
  - exists (pieces_text u ++ d_text d ++ pieces_text w), (pieces_text u). rewrite LE, next_token_trivia, TA.
    split; [|split].
    + pose proof (slice_mid src pre (pieces_text u ++ d_text d ++ pieces_text w) post) as M.
      rewrite P, !blen_app in M. apply M. rewrite S. reflexivity.
    + pose proof (slice_mid src pre (pieces_text u) (d_text d ++ pieces_text w ++ post)) as M.
      rewrite P in M. apply M. rewrite S, <- !app_assoc. reflexivity.
    + intros CP. rewrite pieces_text_app, pieces_text_cons in WG. specialize (WG CP).
      apply Forall_app in WG as [WU _].
      rewrite no_token_leaves, token_leaves_app, trivia_tokens, app_nil_r, Eo.
      destruct a as [|y a].
      * destruct (token_leaves B); [|discriminate LB]. cbn. tauto.
      * destruct (token_leaves B); [discriminate LB|]. cbn.
        rewrite forallb_app in OK. apply andb_prop in OK as [OU _].
        pose proof (newline_in u OU WU) as Q. unfold newline_among. rewrite Q.
        split; [auto|]. intros [H|H]; [discriminate H|exact H].
Qed.
End Tokens.

(** * Order *)

Lemma chain_order A x M y D : forall n m, chain n (A ++ x :: M ++ y :: D) m ->
  leaf_start x < leaf_end x /\ leaf_end x <= leaf_start y /\ leaf_start y < leaf_end y.
Proof.
  induction A as [|a A IH]; intros n m C.
  - cbn [app chain] in C. destruct C as [_ [C1 C2]].
    destruct (chain_in _ _ _ y C2) as [D1 D2]; [apply in_or_app; right; left; reflexivity|]. auto.
  - cbn [app chain] in C. destruct C as [_ [_ C]]. eapply IH. exact C.
Qed.
Lemma two_splits {X} (A : list X) : forall x B C y D, A ++ x :: B = C ++ y :: D ->
  (exists M, C = A ++ x :: M /\ B = M ++ y :: D) \/ (exists M, A = C ++ y :: M /\ D = M ++ x :: B) \/
  (A = C /\ x = y).
Proof.
  induction A as [|a A IH]; intros x B [|c C] y D E; cbn [app] in E; injection E as E1 E2.
  - right. right. auto.
  - left. exists C. subst. auto.
  - right. left. exists A. subst. auto.
  - subst c. destruct (IH _ _ _ _ _ E2) as [[M [-> ->]]|[[M [-> ->]]|[-> ->]]].
    + left. exists M. auto.
    + right. left. exists M. auto.
    + auto.
Qed.

Lemma within_spot ls n m before own after s f cb cs cf ca : chain n ls m ->
  ls = before ++ own ++ after -> bounded own s f -> ls = cb ++ LCom cs cf :: ca ->
  ((List.length (token_leaves before) <? List.length (token_leaves cb))
   && (List.length (token_leaves cb) <? List.length (token_leaves before) + List.length (token_leaves own)) = true
   <-> s < cs /\ cs < f).
Proof.
  intros Ch E [[k [e [r Er]]] [r' [k' [b Er']]]] E'.
  rewrite andb_true_iff, !Nat.ltb_lt.
  assert (X1 : List.length (token_leaves before) < List.length (token_leaves cb) <-> s < cs).
  { rewrite E, Er in E'. cbn [app] in E'.
    destruct (two_splits _ _ _ _ _ _ E') as [[M [-> EM]]|[[M [-> EM]]|[_ EM]]]; [| |discriminate EM].
    - rewrite E, Er in Ch. cbn [app] in Ch. rewrite EM in Ch.
      pose proof (chain_order _ _ _ _ _ _ _ Ch) as Q. cbn [leaf_start leaf_end] in Q.
      rewrite token_leaves_app, app_length. cbn [token_leaves flat_map app List.length]. lia.
    - rewrite E, Er in Ch. rewrite <- app_assoc in Ch. cbn [app] in Ch.
      pose proof (chain_order _ _ _ _ _ _ _ Ch) as Q. cbn [leaf_start leaf_end] in Q.
      rewrite token_leaves_app, app_length. lia. }
  rewrite X1. clear X1 Er.
  assert (X2 : List.length (token_leaves cb) < List.length (token_leaves before) + List.length (token_leaves own)
               <-> cs < f).
  { rewrite E, Er' in E'. rewrite Er' in E. rewrite E in Ch. rewrite Er'.
    replace (before ++ (r' ++ [LTok k' b f]) ++ after) with ((before ++ r') ++ LTok k' b f :: after) in E', Ch
      by (rewrite <- !app_assoc; reflexivity).
    rewrite <- app_length, <- token_leaves_app, app_assoc, token_leaves_app, app_length.
    change (List.length (token_leaves [LTok k' b f])) with 1.
    destruct (two_splits _ _ _ _ _ _ E') as [[M [-> EM]]|[[M [EA EM]]|[_ EM]]]; [| |discriminate EM].
    - rewrite EM in Ch.
      pose proof (chain_order _ _ _ _ _ _ _ Ch) as Q. cbn [leaf_start leaf_end] in Q.
      rewrite (token_leaves_app (before ++ r')), app_length. cbn [token_leaves flat_map app List.length]. lia.
    - rewrite EA in *. rewrite <- app_assoc in Ch. cbn [app] in Ch.
      pose proof (chain_order _ _ _ _ _ _ _ Ch) as Q. cbn [leaf_start leaf_end] in Q.
      rewrite token_leaves_app, app_length. lia. }
  rewrite X2. reflexivity.
Qed.

(** * The typed tree *)

Lemma reads_notes pl p g t e : reads pl p g t e -> notes_of e = note pl p g t.
Proof. intros R. destruct R; reflexivity. Qed.
Lemma reads_else pl p g t n nl a : reads pl p g t (EElse n nl a) ->
  exists q r, syn_tokens t = q :: r /\ nl = token_newline q.
Proof.
  intros R. inversion R; subst. eexists. eexists. split; [|reflexivity]. reflexivity.
Qed.
Lemma reads_args pl p g t n k rc items : reads pl p g t (EArgs n k rc items) ->
  exists kk a lk l z, t = Node kk [Tok a; Node lk l; Tok z] /\
    reads_sep pl SoArg (1 :: p) 0 (g + 1) l items.
Proof. intros R. inversion R; subst. do 5 eexists. split; [reflexivity|assumption]. Qed.
Lemma separator_notes c e : notes_of (with_separator c e) = notes_of e.
Proof. destruct e; reflexivity. Qed.
Lemma separated_commas pl ps src t :
  (forall a c b, ps = a ++ c :: b -> token_of c = tCOMMA ->
     exists gap, source_gap src t (List.length a) COMMA gap /\
       (cr_paired gap -> token_lines c = breaks_in (List.length a =? 0) gap)) ->
  forall s q i g l es, reads_sep pl s q i g l es -> s = SoArg -> window ps g (flat_map syn_tokens l) ->
  commas_right src t g es.
Proof.
  intros Hc. induction 1 as [|s q i g x e R S|s q i g x e c r es R S C N _ IH]; intros -> W;
    cbn [commas_right]; auto.
  cbn [flat_map syn_tokens app] in W. apply window_app in W as [_ W].
  apply window_cons in W as [Wc W]. unfold width in IH. specialize (IH eq_refl W).
  destruct es as [|e1 es]; [exact I|]. rewrite separator_tokens, (reads_wide _ _ _ _ _ R).
  split; [|exact IH].
  destruct Wc as [a [b [E L]]]. destruct (Hc a c b E C) as [gap [G1 G2]]. rewrite L in G1, G2.
  destruct e; try discriminate S. exists gap. auto.
Qed.
Lemma ranges_length l : forall i, List.length (own_ranges i l) = List.length l.
Proof. induction l as [|p l IH]; intros i; [reflexivity|]. cbn. rewrite IH. reflexivity. Qed.

Section Right.
Variables (rf : bool) (src : text) (t : ts) (r : root).
Hypothesis W : well_parsed src t.
Hypothesis F : source_root rf src t = Some r.

Theorem source_right : forall g e, In (g, e) (root_nodes r) ->
  node_right src t g e /\
  match e with EArgs _ _ _ l => commas_right src t (g + 1) l | _ => True end.
Proof.
  destruct (source_root_front rf src t r F) as [g [s [P [O H]]]].
  pose proof (open_green_tokens g s O) as T.
  destruct (tokens_and_trivia_holds src t g W P) as [qs [T' [Fm [Ow [Sl Pi]]]]].
  rewrite T' in T. assert (qs = syn_tokens s) as ->.
  { revert T. generalize (syn_tokens s). clear. induction qs as [|p q IH]; intros [|x l] H;
      try discriminate H; [reflexivity|]. cbn in H. injection H as -> H. f_equal. auto. }
  pose proof (trailing_on_line_holds src t g _ W P T') as Qu.
  pose proof (comment_placement_holds src t g _ W P T') as Co.
  destruct (breaks_holds src t g _ W P T') as [Br [Li Nn]].
  destruct W as [_ [_ La]].
  destruct (front_located rf s r H) as [ps [z [Ez [_ L]]]].
  assert (Z : p_trailing z = []).
  { rewrite Ez in *. exact (proj2 (end_of_file src t ps z Fm Ow Pi)). }
  pose proof (attached_decorated s rf ps z Ez Z) as De.
  rewrite Ez in *.
  set (pl := attached s rf) in *.
  pose proof (laid_chain _ _ _ La) as Ch.
  assert (NC : forall p g0 t0 (ins : nat -> Prop),
    (forall q, In q pl -> forall cb cs cf ca, leaves t = cb ++ LCom cs cf :: ca ->
       List.length (token_leaves cb) = d_gap (pt_comment q) ->
       (g0 <? d_gap (pt_comment q)) && (d_gap (pt_comment q) <? g0 + List.length (syn_tokens t0)) = true
       <-> ins cs) ->
    Forall (comment_right src t ins) (own_notes (note pl p g0 t0))).
  { intros p g0 t0 ins In_.
    assert (A : forall h, Forall (comment_right src t ins)
              (map (comment_of g0 (List.length (syn_tokens t0))) (placed_at pl h p))).
    { intros h. apply Forall_map, Forall_forall. intros q Hq. apply filter_In in Hq as [Hq _].
      pose proof (proj1 (Forall_forall _ _) De q Hq) as Dq.
      destruct (commented src t ps z Fm Ow Pi La Co Br Nn _ Dq)
        as (cb & cs & cf & ca & E1 & E2 & E3 & _).
      exists cs, cf. split; [exact E3|]. exact (In_ q Hq _ _ _ _ E1 E2). }
    unfold own_notes, note. cbn [n_lead n_dang n_trail]. repeat (apply Forall_app; split); apply A. }
  assert (TX : forall p g0 t0 e0, reads pl p g0 t0 e0 -> window ps g0 (syn_tokens t0) ->
    etokens e0 = [] /\ notes_of e0 = note pl p g0 t0 /\ syn_tokens t0 = [] \/
    exists before own u f gap, spot src t g0 e0 before own u f /\
      slice u f src = Some (n_src (notes_of e0)) /\
      slice (last_end before) u src = Some gap /\
      (cr_paired gap ->
        (n_newline (notes_of e0) = true <-> In LF gap) /\
        n_lines (notes_of e0) = breaks_in (no_token before) gap) /\
      Forall (comment_right src t (fun i => u < i /\ i < f)) (own_notes (notes_of e0))).
  { intros p g0 t0 e0 R [a [b [E Ga]]]. pose proof (reads_tokens _ _ _ _ _ R) as RT.
    rewrite (reads_notes _ _ _ _ _ R). pose proof (NC p g0 t0) as NN.
    destruct (syn_tokens t0) as [|x w] eqn:D; [left; auto|right].
    assert (N1 : n_src (note pl p g0 t0) = trimmed (x :: w)) by (unfold note; rewrite D; reflexivity).
    assert (N2 : n_newline (note pl p g0 t0) = token_newline x) by (unfold note, first_token; rewrite D; reflexivity).
    assert (N3 : n_lines (note pl p g0 t0) = token_lines x) by (unfold note, first_token; rewrite D; reflexivity).
    rewrite N1, N2, N3.
    destruct (spotted src t ps z Fm Ow Sl Pi La Co a x w b E) as [f [after [E1 [E2 [E3 [_ E5]]]]]].
    destruct (gapped src ps z Fm Pi Qu Br Li a x (w ++ b) E) as [gap [E6 E7]].
    eexists. eexists. eexists. exists f, gap. split; [|split; [exact E5|split; [exact E6|split]]].
    - split; [exists after; exact E1|].
      split; [|split; [exact E2|rewrite E3; exact RT]].
      rewrite token_leaves_app, trivia_tokens, app_nil_r, parts_tokens, ranges_length. exact Ga.
    - exact E7.
    - apply NN. intros q Hq cb cs cf ca C1 C2.
      rewrite <- (within_spot _ _ _ _ _ _ _ _ _ _ _ _ Ch E1 E2 C1).
      rewrite C2, token_leaves_app, trivia_tokens, app_nil_r, parts_tokens, own_leaves_tokens, !ranges_length, Ga.
      reflexivity. }
  intros g0 e Hi. destruct (proj1 (Forall_forall _ _) L _ Hi) as [p [t0 [e0 [R [_ [Wi Se]]]]]].
  cbn [fst snd] in *.
  assert (Sn : notes_of e = notes_of e0 /\ etokens e = etokens e0).
  { destruct Se as [-> |[c ->]]; [auto|]. split; [apply separator_notes|apply separator_tokens]. }
  destruct Sn as [Sn St].
  split.
  - unfold node_right, spot. rewrite Sn, St.
    destruct (TX p g0 t0 e0 R Wi) as [[A [B C]]|[before [own [u [f [gap [A [B [C [D E4]]]]]]]]]].
    + left. split; [exact A|]. rewrite B. split; [|split; [|split]].
      1-3: unfold note, first_token; rewrite C; reflexivity.
      apply NC. intros q Hq cb cs cf ca _ _. rewrite C. cbn [List.length]. rewrite andb_true_iff, !Nat.ltb_lt.
      split; [lia|tauto].
    + right. exists before, own, u, f, gap. split; [exact A|]. split; [exact B|]. split; [exact C|]. split; [|exact E4].
      intros CP. destruct (D CP) as [D1 D2]. split; [exact D1|]. split; [exact D2|].
      destruct e; try exact I.
      assert (E : EElse n nl e = e0).
      { destruct Se as [-> |[c Ec]]; [reflexivity|]. destruct e0; discriminate Ec || exact Ec. }
      rewrite <- E in R, D1. destruct (reads_else _ _ _ _ _ _ _ R) as [x [w [Et En]]].
      rewrite (reads_notes _ _ _ _ _ R) in D1. unfold note, first_token in D1.
      cbn [n_newline] in D1. rewrite Et in D1. rewrite En. exact D1.
  - destruct e; try exact I.
    assert (E : EArgs n k rc items = e0).
    { destruct Se as [-> |[c Ec]]; [reflexivity|]. destruct e0; discriminate Ec || exact Ec. }
    rewrite <- E in R. unfold commas_right.
    destruct (reads_args _ _ _ _ _ _ _ _ R) as [kk [la [lk [l [lz [Et Rs]]]]]]. rewrite Et in Wi.
    cbn [syn_tokens flat_map app] in Wi. apply window_cons in Wi as [_ Wi].
    apply window_app in Wi as [Wi _].
    eapply separated_commas; [|exact Rs|reflexivity|exact Wi].
    clear - Fm Ow Sl Pi La Co Qu Br Li. intros a c b E C.
    destruct (gapped src ps z Fm Pi Qu Br Li a c b E) as [gap [E6 E7]].
    destruct (spotted src t ps z Fm Ow Sl Pi La Co a c [] b E) as [f [after [E1 _]]].
    assert (Kc : p_kind c = COMMA) by (injection C as C _; exact C).
    exists gap. split.
    + do 3 eexists. exists after. split; [|split; [|exact E6]].
      * rewrite E1. unfold own_leaves, own_leaf. rewrite Kc. reflexivity.
      * rewrite token_leaves_app, trivia_tokens, app_nil_r, parts_tokens, ranges_length. reflexivity.
    + intros CP. destruct (E7 CP) as [_ E8]. rewrite E8. f_equal.
      rewrite no_token_leaves, token_leaves_app, trivia_tokens, app_nil_r, parts_tokens.
      destruct a; reflexivity.
Qed.
End Right.
