(** The comments between two tokens of the source are attached to the
    expressions next to them. *)
From Coq Require Import List Arith Bool NArith Lia.
From Verif Require Import Text TextFacts SettingsModel SyntaxKind ParseModel ParseSpec ParseProofs
  ParseTree FmtTree FmtSpec CommentsModel CommentsSpec CommentsProofs AstModel AstReads AstProofs
  FrontProofs SourceSpec SourceProofs SourceCommentProofs AroundProofs PlaceSpec PlaceProofs.
Import ListNotations.

(** * The comments of a gap *)

Definition brief (d : text * nat * nat * bool * nat) : text * bool :=
  let '(x, _, _, own, _) := d in (x, own).

Lemma in_gap_trivia xs : forall pos A, (A = [] \/ exists k s f A', A = LTok k s f :: A') ->
  in_gap 0 (trivia_leaves pos xs ++ A) = comment_leaves (trivia_leaves pos xs).
Proof.
  induction xs as [|[k x] r IH]; intros pos A HA.
  - destruct HA as [->|[k [s [f [A' ->]]]]]; reflexivity.
  - cbn [trivia_leaves]. destruct k; cbn [app in_gap]; [apply IH, HA|apply IH, HA|].
    rewrite IH by exact HA. reflexivity.
Qed.
Lemma in_gap_after B : forall C, (B = [] \/ exists B' k s f, B = B' ++ [LTok k s f]) ->
  in_gap (List.length (token_leaves B)) (B ++ C) = in_gap 0 C.
Proof.
  induction B as [|l B IH]; intros C HB; [reflexivity|].
  assert (HB' : B = [] \/ exists B' k s f, B = B' ++ [LTok k s f]).
  { destruct HB as [HB|[B' [k [s [f E]]]]]; [discriminate HB|]. destruct B' as [|l' B'].
    - cbn in E. injection E as -> ->. auto.
    - cbn in E. injection E as -> ->. right. eauto. }
  destruct l as [k s f|s f]; cbn [token_leaves flat_map app List.length in_gap]; [exact (IH C HB')|].
  fold (token_leaves B).
  destruct (List.length (token_leaves B)) as [|n] eqn:L; [|rewrite <- (IH C HB'); reflexivity].
  exfalso. destruct HB as [HB|[B' [k [s' [f' E]]]]]; [discriminate HB|].
  destruct B' as [|l' B']; [discriminate E|]. cbn in E. injection E as _ ->.
  rewrite token_leaves_app, app_length in L. cbn in L. lia.
Qed.
Lemma token_leaves_nth B k s f C : nth_error (token_leaves (B ++ LTok k s f :: C)) (List.length (token_leaves B)) = Some (k, s, f).
Proof. rewrite token_leaves_app, nth_error_app2, Nat.sub_diag by lia. reflexivity. Qed.

Section Tokens.
Variables (src : text) (t : ts) (ps : list parts) (z : parts).
Hypothesis Whole : flat_map parts_text (ps ++ [z]) = src.
Hypothesis Own : own_ranges 0 (ps ++ [z]) = token_leaves (leaves t) ++ [(EOF, blen src, blen src)].
Hypothesis Pieces : Forall (fun p => forallb piece_ok (p_leading p) = true /\
  forallb piece_ok (p_trailing p) = true) (ps ++ [z]).
Hypothesis Laid : laid 0 (leaves t) src = true.
Hypothesis Comments : placed_comments (placed_trivia 0 (ps ++ [z])) = comment_places src None (leaves t).
Hypothesis Breaks : Forall (fun p => whole_breaks (p_leading p)) (ps ++ [z]).
Hypothesis Silent : Forall (fun p => no_newline (p_trailing p)) (ps ++ [z]).

Lemma gap_bare_comments a x b : ps ++ [z] = a ++ x :: b -> gap_clean src t (List.length a) ->
  map brief (gap_bare a x) = gap_comments src t (List.length a).
Proof.
  intros E Cl.
  destruct (gap_leaves src t ps z Whole Own Pieces Laid Comments a x b E)
    as (B & A & pos & pre & post & L & LB & EB & SB & NA & TA & Sr & P & HB & HA).
  pose proof (gap_ok ps z Pieces a x b E) as OK. pose proof (whole_gap ps z Breaks Silent a x b E) as WG.
  assert (St : gap_start t (List.length a) = pos).
  { unfold gap_start. rewrite <- LB. destruct HB as [->|[B' [k [s [f ->]]]]]; [exact EB|].
    rewrite token_leaves_app, app_length. cbn [token_leaves flat_map app List.length].
    rewrite Nat.add_comm. cbn [Nat.add]. rewrite L, <- app_assoc. cbn [app]. rewrite token_leaves_nth.
    rewrite <- EB. unfold last_end. rewrite fold_left_app. reflexivity. }
  assert (En : gap_end src t (List.length a) = pos + blen (pieces_text (gap_of a x))).
  { unfold gap_end. rewrite <- LB, L, app_assoc.
    replace (List.length (token_leaves B)) with (List.length (token_leaves (B ++ trivia_leaves pos (gap_of a x))))
      by (rewrite token_leaves_app, trivia_tokens, app_nil_r; reflexivity).
    destruct HA as [->|[k [s [f [A' ->]]]]].
    - rewrite app_nil_r. cbn [next_token] in TA.
      rewrite (proj2 (nth_error_None _ _)) by lia. exact TA.
    - rewrite token_leaves_nth. exact TA. }
  assert (CP : cr_paired (pieces_text (gap_of a x))).
  { apply Cl. rewrite St, En. rewrite <- P. exact (slice_mid src pre _ post Sr). }
  specialize (WG CP).
  unfold gap_comments, gap_bare. rewrite L, <- LB.
  rewrite in_gap_after by exact HB. rewrite in_gap_trivia by exact HA. rewrite LB.
  assert (G : forall w u lines, gap_of a x = u ++ w ->
    map brief (map bare (decorate (List.length a) [] None None
      (match a with [] => true | _ => false end || newline_among u) lines w)) =
    flat_map (fun c => match slice (fst c) (snd c) src with
                       | Some x => [(x, alone src t (List.length a) (fst c))]
                       | None => []
                       end) (comment_leaves (trivia_leaves (pos + blen (pieces_text u)) w))).
  { induction w as [|[k y] w IH]; intros u lines Eu; [reflexivity|].
    assert (Eu' : gap_of a x = (u ++ [(k, y)]) ++ w) by (rewrite Eu, <- app_assoc; reflexivity).
    assert (Py : pieces_text (u ++ [(k, y)]) = pieces_text u ++ y).
    { rewrite pieces_text_app, pieces_text_cons. cbn. rewrite app_nil_r. reflexivity. }
    assert (Na : newline_among (u ++ [(k, y)]) = newline_among u || tkind_eqb k Newline).
    { unfold newline_among. rewrite existsb_app. cbn. rewrite orb_false_r. reflexivity. }
    cbn [decorate trivia_leaves]. destruct k.
    - specialize (IH _ lines Eu'). rewrite Na, orb_false_r, Py, blen_app, Nat.add_assoc in IH. exact IH.
    - specialize (IH _ (S lines) Eu'). rewrite Na, orb_true_r, orb_true_r, Py, blen_app, Nat.add_assoc in IH.
      exact IH.
    - specialize (IH _ 0 Eu'). rewrite Na, orb_false_r, Py, blen_app, Nat.add_assoc in IH.
      rewrite comment_leaves_app. cbn [map comment_leaves flat_map app].
      fold (comment_leaves (trivia_leaves (pos + blen (pieces_text u) + blen y) w)).
      cbn [fst snd].
      assert (S1 : slice (pos + blen (pieces_text u)) (pos + blen (pieces_text u) + blen y) src = Some y).
      { rewrite <- P, <- blen_app. apply (slice_mid src (pre ++ pieces_text u) y (pieces_text w ++ post)).
        rewrite Sr, Eu, pieces_text_app, pieces_text_cons, <- !app_assoc. reflexivity. }
      rewrite S1. cbn [app]. rewrite <- IH. f_equal. cbn. f_equal.
      unfold alone. rewrite St.
      assert (S2 : slice pos (pos + blen (pieces_text u)) src = Some (pieces_text u)).
      { rewrite <- P. apply (slice_mid src pre (pieces_text u) (pieces_text ((Comment, y) :: w) ++ post)).
        rewrite Sr, Eu, pieces_text_app, <- !app_assoc. reflexivity. }
      rewrite S2. f_equal; [destruct a; reflexivity|].
      rewrite Eu in WG, OK. apply Forall_app in WG as [WU _]. rewrite forallb_app in OK.
      apply andb_prop in OK as [OU _]. pose proof (newline_in u OU WU) as Q.
      apply eq_true_iff_eq. unfold newline_among. rewrite Q, existsb_exists. split.
      + intros I. exists LF. split; [exact I|apply N.eqb_refl].
      + intros [c [I Ec]]. apply N.eqb_eq in Ec. subst c. exact I. }
  specialize (G (gap_of a x) [] 0 eq_refl). cbn [newline_among existsb pieces_text flat_map blen] in G.
  rewrite orb_false_r, Nat.add_0_r in G. exact G.
Qed.
End Tokens.

(** * Nodes and their paths *)

Section Sited.
Variable pl : list placement.
Variable root : syn.

(** The node of the syntax tree that [e] was read from. *)
Definition sited (y : nat * expr) : Prop :=
  exists p t e0, reads pl p (fst y) t e0 /\ at_path root p = Some t /\
    off root p = fst y /\ (snd y = e0 \/ exists c, snd y = with_separator c e0).

Lemma sited_here p g t e : reads pl p g t e -> at_path root p = Some t ->
  off root p = g -> sited (g, e).
Proof. intros R A W. exists p, t, e. cbn [fst snd]. auto 10. Qed.
Lemma sited_separator c p g t e : reads pl p g t e -> at_path root p = Some t -> off root p = g ->
  Forall sited (nodes g e) -> Forall sited (nodes g (with_separator c e)).
Proof.
  intros R A W E.
  assert (H : sited (g, with_separator c e)) by (exists p, t, e; cbn [fst snd]; eauto 10).
  destruct e; cbn [with_separator] in *; try exact E. apply Forall_inv_tail in E. constructor; [exact H|exact E].
Qed.
Lemma off_child p k cs i g : at_path root p = Some (Node k cs) ->
  off root p + List.length (flat_map syn_tokens (firstn i cs)) = g -> off root (i :: p) = g.
Proof. intros A <-. cbn [off]. rewrite A. reflexivity. Qed.
Lemma lined_child p k cs i lk l g : at_path root p = Some (Node k cs) -> nth_error cs i = Some (Node lk l) ->
  off root p + List.length (flat_map syn_tokens (firstn i cs)) = g -> lined root (i :: p) 0 g l.
Proof.
  intros A N <-. rewrite <- (off_child p k cs i _ A eq_refl). apply (lined_node root (i :: p) lk).
  exact (at_child root p k cs i _ A N).
Qed.

Ltac child := match goal with
  | A : at_path root ?p = Some (Node _ ?cs) |- at_path root (?i :: ?p) = Some _ =>
    exact (at_child root p _ cs i _ A eq_refl)
  end.
Ltac there := match goal with
  | A : at_path root ?p = Some (Node _ ?cs) |- off root (?i :: ?p) = _ =>
    apply (off_child p _ cs i _ A)
  | A : at_path root ?p = Some (Node _ ?cs) |- lined root (?i :: ?p) _ _ _ =>
    apply (lined_child p _ cs i _ _ _ A eq_refl)
  end; cbn [firstn flat_map syn_tokens app List.length]; rewrite ?app_length; cbn [List.length];
  rewrite ?app_length; unfold width in *; cbn [List.length]; lia.

Lemma reads_sited p g t e : reads pl p g t e -> reads pl p g t e -> at_path root p = Some t ->
  off root p = g -> Forall sited (nodes g e).
Proof.
  revert p g t e.
  apply (reads_mind pl
    (fun p g t e => reads pl p g t e -> at_path root p = Some t ->
       off root p = g -> Forall sited (nodes g e))
    (fun s q i g l es => lined root q i g l -> Forall sited (row nodes 0 g es))
    (fun s q i g l es => lined root q i g l -> Forall sited (row nodes 1 g es)));
    intros;
    match goal with
    | R : reads _ ?p ?g ?t ?e, A : at_path root ?p = Some ?t, W : off root ?p = ?g
      |- Forall sited (nodes ?g ?e) =>
      pose proof (sited_here p g t e R A W) as HL
    | _ => idtac
    end.
  all: try (cbn [nodes opt_list List.length];
    repeat match goal with R : reads _ _ _ _ ?e |- context [List.length (etokens ?e)] =>
         rewrite (reads_wide _ _ _ _ _ R) end;
    repeat match goal with
    | |- Forall sited (_ :: _) => constructor; [exact HL|]
    | |- Forall sited (_ ++ _) => apply Forall_app; split
    | |- Forall sited [] => constructor
    | IH : _ -> at_path root ?q = Some _ -> _ -> Forall sited (nodes _ ?e) |- Forall sited (nodes _ ?e) =>
      rewrite ?Nat.add_0_r; apply IH; [assumption|child|there]
    | IH : lined root _ _ _ ?l -> Forall sited (row _ _ _ ?es) |- Forall sited (row _ _ _ ?es) =>
      apply IH; there
    end; fail).
  all: try (constructor; fail).
  all: cbn [row]; fold (row nodes 0); fold (row nodes 1);
    match goal with W : lined _ _ _ _ (?x :: ?l) |- _ =>
      destruct (lined_head _ _ _ _ _ _ W) as [HA HO]; pose proof (lined_tail _ _ _ _ _ _ W) as HT end.
  - rewrite (reads_wide _ _ _ _ _ H), Nat.add_0_r. apply Forall_app. split.
    + apply H0; assumption.
    + apply H3; assumption.
  - rewrite app_nil_r. apply H0; assumption.
  - rewrite separator_tokens, (reads_wide _ _ _ _ _ H). apply Forall_app. split.
    + eapply sited_separator; [eassumption|assumption|assumption|]. apply H0; assumption.
    + apply H5. apply lined_tail in HT. exact HT.
Qed.
Lemma list_sited s q i g l es : reads_list pl s q i g l es -> lined root q i g l ->
  Forall sited (row nodes 0 g es).
Proof.
  induction 1 as [|s q i g x e r es R So _ IH]; intros A; cbn [row]; [constructor|].
  fold (row nodes 0). destruct (lined_head _ _ _ _ _ _ A) as [HA HO]. apply Forall_app. split.
  - eapply reads_sited; eauto.
  - rewrite (reads_wide _ _ _ _ _ R), Nat.add_0_r. apply IH. exact (lined_tail _ _ _ _ _ _ A).
Qed.
End Sited.

Lemma front_sited rf t r : front_end rf t = Some r -> Forall (sited (attached t rf) t) (root_nodes r).
Proof.
  intros H. unfold root_nodes, bom_tokens.
  destruct (front_end_reads _ _ _ H) as [cs [e [lk [l [b [q [g [-> [-> [-> [Ke [B [_ R]]]]]]]]]]]]].
  destruct (r_bom r) as [x|].
  - destruct B as [y [-> [_ [-> ->]]]]. eapply list_sited; [exact R|].
    exact (lined_node (Node R_ROOT ([Tok y] ++ [Node R_EXPRESSION_LIST l; Tok e])) [1] R_EXPRESSION_LIST l eq_refl).
  - destruct B as [-> [-> ->]]. eapply list_sited; [exact R|].
    exact (lined_node (Node R_ROOT ([] ++ [Node R_EXPRESSION_LIST l; Tok e])) [0] R_EXPRESSION_LIST l eq_refl).
Qed.

(** * Sequences of expressions *)

Lemma form_braced k : form_of k = FoBraced -> k = R_BRACED_EXPRESSIONS.
Proof. destruct k; cbn; congruence. Qed.
Lemma form_paren k : form_of k = FoParen -> k = R_PARENTHESIZED_EXPRESSION.
Proof. destruct k; cbn; congruence. Qed.

Fixpoint indexed (q : path) (i : nat) (l : list syn) : list (path * syn) :=
  match l with [] => [] | x :: r => (i :: q, x) :: indexed q (S i) r end.
Lemma kids_indexed q l : Forall plain l -> forall i, kids_from q i l = indexed q i l.
Proof.
  induction 1 as [|x l P _ IH]; intros i; [reflexivity|]. cbn [kids_from indexed].
  rewrite (spread_plain _ _ P), IH. reflexivity.
Qed.
Lemma indexed_app q a b : forall i, indexed q i (a ++ b) = indexed q i a ++ indexed q (i + List.length a) b.
Proof.
  induction a as [|x a IH]; intros i; cbn [app indexed List.length]; [rewrite Nat.add_0_r; reflexivity|].
  rewrite IH, <- Nat.add_succ_comm. reflexivity.
Qed.
Lemma indexed_width q l : forall i, kwidth (indexed q i l) = List.length (flat_map syn_tokens l).
Proof.
  induction l as [|x l IH]; intros i; [reflexivity|]. cbn [indexed flat_map].
  rewrite kwidth_cons, IH, app_length. reflexivity.
Qed.

Section Listed.
Variable pl : list placement.
Lemma list_split s q a e b : forall i g l, reads_list pl s q i g l (a ++ e :: b) ->
  exists la x lb, l = la ++ x :: lb /\ List.length la = List.length a /\
    List.length (flat_map syn_tokens la) = wide a /\
    reads pl (i + List.length a :: q) (g + wide a) x e /\ sort_of e = s /\
    reads_list pl s q i g la a /\
    reads_list pl s q (S (i + List.length a)) (g + wide a + width x) lb b.
Proof.
  unfold wide. induction a as [|e' a IH]; intros i g l R.
  - cbn [app] in R. inversion R as [|? ? ? ? x ? lb ? R1 S1 R2]; subst. exists [], x, lb. cbn [List.length flat_map].
    rewrite !Nat.add_0_r. repeat split; auto. constructor.
  - cbn [app] in R. inversion R as [|? ? ? ? x ? lb ? R1 S1 R2]; subst.
    destruct (IH _ _ _ R2) as (la & y & lb' & -> & L & W & R3 & S3 & R4 & R5).
    exists (x :: la), y, lb'. cbn [List.length flat_map].
    rewrite !app_length, L, W, (reads_wide _ _ _ _ _ R1), <- ?Nat.add_succ_comm, ?Nat.add_assoc.
    cbn [Nat.add] in *. change (List.length (syn_tokens x)) with (width x).
    repeat split; auto. constructor; auto.
Qed.
Lemma list_nodes s q i g l es : reads_list pl s q i g l es -> Forall (fun x => is_node x = true) l.
Proof.
  induction 1 as [|s q i g x e r es R So _ IH]; constructor; auto.
  destruct (reads_form pl _ _ _ _ R) as [k [cs [-> _]]]. reflexivity.
Qed.
Lemma list_wide q i g l es : reads_list pl SoExpr q i g l es -> Forall (fun x => 1 <= width x) l.
Proof.
  remember SoExpr as s eqn:Es. induction 1 as [|s q i g x e r es R So _ IH]; constructor; auto.
  destruct (reads_solid _ _ _ _ _ R) as [_ [W1 W2]]. apply W1, W2. congruence.
Qed.
End Listed.
Lemma indexed_nodes q l : Forall (fun x => is_node x = true) l ->
  forall i, Forall (fun y => is_node (snd y) = true) (indexed q i l).
Proof. induction 1 as [|x l N _ IH]; intros i; constructor; auto. Qed.
Lemma indexed_forall q (P : syn -> Prop) l : Forall P l -> forall i, Forall (fun y => P (snd y)) (indexed q i l).
Proof. induction 1 as [|x l N _ IH]; intros i; constructor; auto. Qed.
Lemma lastnode_indexed q x l : Forall (fun x => is_node x = true) (l ++ [x]) -> forall i,
  lastnode (indexed q i (l ++ [x])) = Some (i + List.length l :: q).
Proof.
  intros F i. rewrite indexed_app, lastnode_app. cbn. apply Forall_app in F as [_ F].
  rewrite (Forall_inv F). reflexivity.
Qed.

Section Front.
Variables (rf : bool) (t : syn) (r : root).
Hypothesis H : front_end rf t = Some r.
Notation pl := (attached t rf).

(** Where a sequence of expressions stands. *)
Record seat (br : bool) (g : nat) (es : list expr) (p : path) (g0 : nat) (k : kind) (cs : list syn)
    (q : path) (pre : list (path * syn)) (l : list syn) (zq : path) (z : parts) : Prop := {
  seat_reach : reach t p g0 (Node k cs);
  seat_kind : sits_in_list k = true;
  seat_plain : is_list k = false;
  seat_kids : kids p cs = pre ++ indexed q 0 l ++ [(zq, Tok z)];
  seat_reads : reads_list pl SoExpr q 0 g l es;
  seat_count : g = g0 + kwidth pre;
  seat_pre : pre = [] /\ p = [] \/ exists pq x, pre = [(pq, Tok x)];
  seat_list : list_at t q = true;
  seat_braces : if br then q = 1 :: p /\ k = R_BRACED_EXPRESSIONS /\ pre <> [] else p = [] /\ k = R_ROOT /\ exists j, q = [j]
}.
Lemma sequence_seat br g es : sequence r br g es ->
  exists p g0 k cs q pre l zq z, seat br g es p g0 k cs q pre l zq z.
Proof.
  destruct (front_solid rf t r H) as [cs0 [Et _]].
  destruct 1 as [|g n es I].
  - destruct (front_end_reads _ _ _ H) as [cs [e [lk [l [b [q [g [Er [Ecs [-> [Ke [B [_ R]]]]]]]]]]]]].
    destruct (list_solid _ _ _ _ _ _ _ R) as [_ Pl].
    exists [], 0, R_ROOT, cs, q.
    unfold bom_tokens. destruct (r_bom r) as [x|].
    + destruct B as [y [-> [_ [-> ->]]]]. exists [([0], Tok y)], l, [2], e.
      split; eauto; try (rewrite Er; try constructor; rewrite Ecs; reflexivity).
      rewrite Ecs. unfold kids. cbn [app kids_from]. rewrite spread_list by reflexivity.
      unfold kids. rewrite (kids_indexed _ _ Pl). reflexivity.
    + destruct B as [-> [-> ->]]. exists [], l, [1], e.
      split; eauto; try (rewrite Er; try constructor; rewrite Ecs; reflexivity).
      rewrite Ecs. unfold kids. cbn [app kids_from]. rewrite spread_list by reflexivity.
      unfold kids. rewrite (kids_indexed _ _ Pl). reflexivity.
  - pose proof (proj1 (Forall_forall _ _) (front_sited rf t r H) _ I) as (p & t0 & e0 & R & A & O & E).
    cbn [fst snd] in *.
    assert (e0 = EBraced n es) as ->.
    { destruct E as [->|[c E]]; [reflexivity|]. destruct e0; try discriminate E; auto. }
    inversion R as [| | | | | | | | | | | | | | | |? ? k a lk l z ? Fk Ta Tz Lk Rl| | | | | | | |]; subst.
    apply form_braced in Fk as ->. destruct (list_solid _ _ _ _ _ _ _ Rl) as [_ Pl].
    exists p, (off t p), R_BRACED_EXPRESSIONS, [Tok a; Node R_EXPRESSION_LIST l; Tok z], (1 :: p), [(0 :: p, Tok a)], l,
      (2 :: p), z.
    split; auto.
    + apply at_reach; [rewrite Et; reflexivity|exact A|reflexivity].
    + unfold kids. cbn [app kids_from]. rewrite spread_list by reflexivity.
      unfold kids. rewrite (kids_indexed _ _ Pl). reflexivity.
    + right. eauto.
    + unfold list_at. rewrite (at_child t p _ _ 1 _ A eq_refl). reflexivity.
    + split; [reflexivity|]. split; [reflexivity|discriminate].
Qed.
End Front.

(** * What is attached to an item *)

Lemma notes_read pl p g t e : reads pl p g t e -> notes_of e = note pl p g t.
Proof. destruct 1; reflexivity. Qed.
Lemma reach_bound root p g t : reach root p g t ->
  exists a b, syn_tokens root = a ++ syn_tokens t ++ b /\ List.length a = g.
Proof.
  induction 1 as [|p g k cs d1 q c d2 _ (a & b & E & L) P K].
  - exists [], []. rewrite app_nil_r. auto.
  - cbn [syn_tokens] in E. rewrite <- (kids_tokens p cs), K, ktoks_app in E.
    change (ktoks ((q, c) :: d2)) with (syn_tokens c ++ ktoks d2) in E.
    exists (a ++ ktoks d1), (ktoks d2 ++ b). rewrite E, <- !app_assoc, app_length, L.
    split; reflexivity.
Qed.

(** Comments picked by whether they stand alone on their line. *)
Lemma picked (sel : bool -> bool) test (l : list placement) w :
  (forall s, In s l -> test s = sel (d_own (pt_comment s))) ->
  map brief (map bare (map pt_comment l)) = w ->
  map (fun s => d_text (pt_comment s)) (filter test l) = map fst (filter (fun c => sel (snd c)) w).
Proof.
  intros T <-. induction l as [|s l IH]; [reflexivity|]. cbn [map filter].
  rewrite (T s) by (left; reflexivity). cbn [brief bare snd].
  destruct (sel (d_own (pt_comment s))); cbn [map fst]; rewrite IH; auto; intros u I; apply T; right; exact I.
Qed.
Lemma filter_none {X} (f : X -> bool) l : (forall x, In x l -> f x = false) -> filter f l = [].
Proof.
  induction l as [|x l IH]; intros H; [reflexivity|]. cbn. rewrite H by (left; reflexivity).
  apply IH. intros y I. apply H. right. exact I.
Qed.
Lemma filter_all {X} (l : list X) : filter (fun _ => true) l = l.
Proof. induction l as [|x l IH]; [reflexivity|]. cbn. rewrite IH. reflexivity. Qed.

Section Placed.
Variables (root : syn) (pl : list placement).
Hypothesis plain_root : plain root.
Hypothesis all_settled : Forall (settled root) pl.
Hypothesis first_kid_node : forall s k cs, In s pl -> d_gap (pt_comment s) = 0 -> root = Node k cs ->
  exists x r, kids [] cs = x :: r /\ is_node (snd x) = true.

Definition item_like (q : path) : Prop :=
  is_kind root R_ARGUMENT q = false /\
  forall j y, q = j :: y -> list_at root y = true \/ is_kind root R_PARENTHESIZED_EXPRESSION y = true.

Lemma kind_not_at_list k y : is_kind root k y = true -> is_list k = false -> list_at root y = false.
Proof. apply kind_not_list. Qed.

Lemma item_placed q s : item_like q -> In s pl -> pt_path s = q ->
  match pt_how s with
  | Trailing => d_preceding (pt_comment s) = Some q
  | Leading => d_following (pt_comment s) = Some q \/ d_enclosing (pt_comment s) = q \/
      exists b, q = 0 :: 1 :: b /\ is_kind root R_BRACED_EXPRESSIONS b = true
  | Dangling => True
  end.
Proof.
  intros [NA IL] I Eq. pose proof (proj1 (Forall_forall _ _) all_settled s I) as [_ A].
  destruct s as [h0 q0 d]. cbn [pt_comment pt_path pt_how] in *. subst q0. unfold add_comment in A.
  destruct (place_comment root d) as [[h q']|] eqn:P.
  - injection A as -> ->. apply place_chosen in P. inversion P; subst; auto.
    + destruct (IL _ _ eq_refl) as [L|L]; congruence.
    + right. right. eauto.
    + congruence.
  - unfold default_place in A.
    destruct (d_own d), (d_preceding d) as [pr|], (d_following d) as [fo|]; injection A as -> ->; auto.
Qed.
End Placed.

(** A comment is alone on its line if there are line breaks before it in its
    gap. *)
Fixpoint flows (k : nat) (l : list decorated) : Prop :=
  match l with
  | [] => True
  | d :: r => d_own d = (0 <? k + d_before d) /\ flows (k + d_before d) r
  end.
Lemma decorate_flows g e p n ps : forall k own lines, own = (0 <? k + lines) ->
  flows k (decorate g e p n own lines ps).
Proof.
  induction ps as [|[[| |] x] ps IH]; intros k own lines E; cbn [decorate flows]; auto.
  all: first [ cbn [d_own d_before]; split; [exact E|]; apply IH; rewrite Nat.add_0_r; exact E
             | apply IH; symmetry; apply Nat.ltb_lt; lia ].
Qed.
Lemma flows_bare l : forall k l', map bare l = map bare l' -> flows k l' -> flows k l.
Proof.
  induction l as [|d l IH]; intros k [|d' l'] E F; try discriminate E; [exact I|].
  cbn [map] in E. injection E as E1 E2 E3 E4 E5 E6. cbn [flows] in *. rewrite E2, E4.
  destruct F as [F1 F2]. split; [exact F1|exact (IH _ _ E6 F2)].
Qed.
Lemma flows_filter l : forall k, flows k l -> flows k (filter (fun d => negb (d_own d)) l).
Proof.
  assert (Z : forall l k, 0 < k -> flows k l -> filter (fun d => negb (d_own d)) l = []).
  { clear. induction l as [|d l IH]; intros k K F; [reflexivity|]. destruct F as [F1 F2]. cbn [filter].
    rewrite F1. assert ((0 <? k + d_before d) = true) as -> by (apply Nat.ltb_lt; lia).
    refine (IH _ _ F2). lia. }
  induction l as [|d l IH]; intros k F; [exact I|]. cbn [filter]. destruct F as [F1 F2].
  destruct (d_own d) eqn:D; cbn [negb].
  - symmetry in F1. apply Nat.ltb_lt in F1. rewrite (Z l _ F1 F2). exact I.
  - cbn [flows]. rewrite D. split; [exact F1|exact (IH _ F2)].
Qed.
(** The comments of a node and those of the source. *)
Fixpoint tracked (k : nat) (cs : list comment) (ws : list (text * bool)) : Prop :=
  match cs, ws with
  | [], [] => True
  | c :: cs, (x, own) :: ws => c_text c = x /\ own = (0 <? k + c_before c) /\ tracked (k + c_before c) cs ws
  | _, _ => False
  end.
Lemma flows_tracked G m l : forall k, flows k (map pt_comment l) ->
  tracked k (map (comment_of G m) l) (map brief (map bare (map pt_comment l))).
Proof.
  induction l as [|d l IH]; intros k F; [exact I|]. destruct F as [F1 F2]. cbn [map tracked brief bare].
  split; [reflexivity|]. split; [exact F1|exact (IH _ F2)].
Qed.
Lemma filter_ext_own test sel l : (forall s, In s l -> test s = sel (d_own (pt_comment s))) ->
  map pt_comment (filter test l) = filter (fun d => sel (d_own d)) (map pt_comment l) /\
  map brief (map bare (map pt_comment (filter test l))) =
    filter (fun c => sel (snd c)) (map brief (map bare (map pt_comment l))).
Proof.
  induction l as [|s l IH]; intros T; [split; reflexivity|].
  destruct (IH ltac:(intros u I; apply T; right; exact I)) as [H1 H2]. cbn [map filter].
  rewrite (T s) by (left; reflexivity). cbn [brief bare snd].
  destruct (sel (d_own (pt_comment s))); cbn [map]; rewrite ?H1; rewrite <- H2; rewrite ?H1; split; reflexivity.
Qed.

(** The token after a comment. *)
Section Nexts.
Variable root : syn.
Variable rf : bool.
Definition next_in (toks : list parts) (d : decorated) : Prop :=
  exists x, nth_error toks (d_gap d) = Some x /\ d_next d = Some (p_kind x).
Definition nexts (toks : list parts) (v : visitor) : Prop :=
  v_count v = List.length toks /\ Forall (next_in toks) (map pt_comment (v_placed v) ++ v_pending v).
Lemma next_more toks l d : next_in toks d -> next_in (toks ++ l) d.
Proof.
  intros (x & N & E). exists x. split; [|exact E]. rewrite nth_error_app1; [exact N|].
  apply nth_error_Some. congruence.
Qed.
Lemma decorate_next gap encl prec next ps : forall own lines,
  Forall (fun d => d_gap d = gap /\ d_next d = next) (decorate gap encl prec next own lines ps).
Proof. induction ps as [|[[] x] r IH]; intros own lines; cbn [decorate]; auto. Qed.
Lemma nexts_flush f toks v : nexts toks v -> nexts toks (flush root f v).
Proof.
  intros (A & C). split; [exact A|]. cbn. rewrite app_nil_r, map_app. apply Forall_app in C as [C1 C2].
  apply Forall_app. split; [exact C1|]. rewrite map_map. apply Forall_map. eapply Forall_impl; [|exact C2].
  intros d (x & N & E). exists x. rewrite add_comment_is. auto.
Qed.
Lemma nexts_visit t : forall p toks v, nexts toks v -> nexts (toks ++ syn_tokens t) (visit root rf p t v).
Proof.
  induction t as [k cs IH|x] using syn_ind'; intros p toks v N.
  - assert (A : forall i toks v, nexts toks v ->
      nexts (toks ++ flat_map syn_tokens cs) (visit_all root rf p i cs v)).
    { induction IH as [|c r Hc _ IHr]; intros i qs w M; cbn [visit_all flat_map].
      - rewrite app_nil_r. exact M.
      - rewrite app_assoc. apply IHr, Hc, M. }
    rewrite visit_node. cbn [syn_tokens]. destruct (is_list k); [apply A, N|].
    assert (E : nexts toks (enter root p v)).
    { pose proof (nexts_flush (Some p) toks v N) as F. unfold enter.
      destruct (v_following v) as [[|i]|]; [exact F|exact N|exact F]. }
    specialize (A 0 _ _ E). set (w := visit_all root rf p 0 cs (enter root p v)) in *. clearbody w.
    exact (nexts_flush None _ (set_following None (set_parents (removelast (v_parents w)) w)) A).
  - destruct N as (A & C). cbn [visit syn_tokens]. unfold visit_token. set (v1 := {| v_pending := _ |}).
    assert (N : nexts (toks ++ [x]) v1).
    { unfold nexts, v1. cbn [v_count v_pending v_placed]. rewrite app_length, A. cbn [List.length].
      split; [lia|]. rewrite app_assoc. apply Forall_app. split.
      - eapply Forall_impl; [|exact C]. intros d. apply next_more.
      - eapply Forall_impl; [|apply decorate_next]. intros d (E1 & E2). exists x.
        rewrite E1, nth_error_app2, Nat.sub_diag by lia. auto. }
    clearbody v1. destruct (v_following v) as [i|]; [|exact N]. exact (nexts_flush _ _ v1 N).
Qed.
Theorem attached_nexts ps z k cs : root = Node k cs -> is_list k = false ->
  syn_tokens root = ps ++ [z] -> p_trailing z = [] ->
  Forall (fun s => next_in (syn_tokens root) (pt_comment s)) (attached root rf).
Proof.
  intros Er L E Z. unfold attached, finish.
  assert (N : nexts (syn_tokens root) (visit root rf [] root new_visitor)).
  { apply (nexts_visit root [] [] new_visitor). repeat split; constructor. }
  assert (T : told (ps ++ [z]) (visit root rf [] root new_visitor)).
  { rewrite <- E. apply (told_visit root rf root [] [] new_visitor). repeat split; constructor. }
  destruct T as (_ & B & _). destruct N as (_ & C).
  rewrite B, rev_app_distr. cbn [rev app]. rewrite Z. cbn [decorate map]. rewrite app_nil_r.
  apply Forall_app in C as [C _]. rewrite Forall_map in C. exact C.
Qed.
End Nexts.

(** The attached comments of a file, and the gaps of its tokens. *)
Record attached_facts (src : text) (t : ts) (rf : bool) (s : syn) : Prop := {
  af_plain : plain s;
  af_root : exists cs, s = Node R_ROOT cs;
  af_green : exists g, parse src false t = Some (g, false) /\ open_green g = Some s;
  af_next : Forall (fun u => next_in (syn_tokens s) (pt_comment u)) (attached s rf);
  af_settled : Forall (settled s) (attached s rf);
  af_split : forall G, G < List.length (syn_tokens s) -> exists A1 A2 A3,
    attached s rf = A1 ++ A2 ++ A3 /\
    (gap_clean src t G -> map brief (map bare (map pt_comment A2)) = gap_comments src t G) /\
    (0 < G -> flows 0 (map pt_comment A2)) /\
    Forall (fun s => d_gap (pt_comment s) < G) A1 /\
    Forall (fun s => d_gap (pt_comment s) = G) A2 /\
    Forall (fun s => G < d_gap (pt_comment s)) A3
}.

Lemma source_attached rf src t r : well_parsed src t -> source_root rf src t = Some r ->
  exists s, front_end rf s = Some r /\ attached_facts src t rf s /\
    exists l e, s = Node R_ROOT [Node R_EXPRESSION_LIST l; Tok e].
Proof.
  intros W F.
  destruct (source_root_front rf src t r F) as [g [s [P [O H]]]].
  pose proof (structure_holds src t g W P) as Sh.
  pose proof (open_green_tokens g s O) as T.
  destruct (tokens_and_trivia_holds src t g W P) as [qs [T' [Fm [Ow [Sl Pi]]]]].
  rewrite T' in T. assert (qs = syn_tokens s) as ->.
  { revert T. generalize (syn_tokens s). clear. induction qs as [|p q IH]; intros [|x l] H;
      try discriminate H; [reflexivity|]. cbn in H. injection H as -> H. f_equal. auto. }
  pose proof (trailing_on_line_holds src t g _ W P T') as Qu.
  pose proof (comment_placement_holds src t g _ W P T') as Co.
  destruct (breaks_holds src t g _ W P T') as [Br [Li Nn]].
  destruct W as [_ [_ La]].
  destruct (front_located rf s r H) as [ps [z [Ez [_ L]]]].
  assert (Z : p_trailing z = []).
  { rewrite Ez in *. exact (proj2 (end_of_file src t ps z Fm Ow Pi)). }
  destruct (front_solid rf s r H) as [cs [Es So]].
  exists s. split; [exact H|]. split.
  - split.
    + rewrite Es. reflexivity.
    + eauto.
    + eauto.
    + exact (attached_nexts s rf ps z R_ROOT cs Es eq_refl Ez Z).
    + exact (attached_around s rf R_ROOT cs ps z Es eq_refl So Ez Z).
    + intros G LG. pose proof (attached_flow s rf ps z R_ROOT cs Es eq_refl Ez Z) as Fl.
      rewrite Ez in *.
      destruct (nth_error (ps ++ [z]) G) as [x|] eqn:N; [|apply nth_error_None in N; lia].
      apply nth_error_split in N as (a & b & E & <-). rewrite E in Fl.
      destruct (flow_split _ _ _ _ Fl) as (A1 & A2 & A3 & E1 & E2 & E3).
      exists A1, A2, A3. split; [exact E1|]. split; [|split; [|exact E3]].
      * intros Cl. rewrite E2. eapply gap_bare_comments; eauto.
      * intros Ga. eapply flows_bare; [exact E2|]. apply decorate_flows.
        destruct a; [cbn in Ga; lia|reflexivity].
  - destruct (front_end_reads _ _ _ H) as [cs' [e [lk [l [b [q [g' [-> [-> [-> [Ke [B _]]]]]]]]]]]].
    exists l, e. destruct (r_bom r) as [x|]; [|destruct B as [-> _]; reflexivity].
    exfalso. destruct B as [y [-> _]]. clear - O Sh.
    destruct g as [k gs|]; [|cbn in O; destruct (take_apart t0); discriminate O].
    destruct gs as [|g1 [|g2 [|g3 gs]]].
    + discriminate O.
    + cbn in O. destruct (open_green g1); discriminate O.
    + cbn in O. destruct (open_green g1), (open_green g2); discriminate O.
    + cbn [shape_of] in Sh. destruct (shape_of 0 g1) as [s1 p1], (shape_of p1 g2) as [s2 p2], (shape_of p2 g3) as [s3 p3].
      revert Sh. match goal with |- context [?f p3 gs] => destruct (f p3 gs) as [l4 p4] end. discriminate.
Qed.

Section Attach.
Variables (src : text) (t : ts) (rf : bool) (s : syn).
Hypothesis AF : attached_facts src t rf s.
Notation pl := (attached s rf).
Hypothesis first_kid_node : forall u k cs, In u pl -> d_gap (pt_comment u) = 0 -> s = Node k cs ->
  exists x r, kids [] cs = x :: r /\ is_node (snd x) = true.
Variables (p : path) (g : nat) (k : kind) (cs : list syn) (d1 : list (path * syn)) (q : path) (c : syn)
  (d2 : list (path * syn)).
Hypothesis Here : reach s p g (Node k cs).
Hypothesis Plain : is_list k = false.
Hypothesis Kids : kids p cs = d1 ++ (q, c) :: d2.
Hypothesis Is_node : is_node c = true.
Hypothesis Wide : 1 <= width c.
Hypothesis Like : item_like s q.
Hypothesis Inner : q <> [].
Hypothesis Before : tight_before d1.
Hypothesis After : tight_after d2.
Notation G1 := (g + kwidth d1).
Notation G2 := (g + kwidth d1 + width c).

Lemma item_inside : G2 + kwidth d2 <= List.length (syn_tokens s).
Proof.
  destruct (reach_bound _ _ _ _ Here) as (a & b & E & <-). rewrite E, !app_length.
  pose proof (kids_width p k cs) as Wd. rewrite Kids, kwidth_app, kwidth_cons in Wd. unfold width in *. lia.
Qed.

Lemma trailing_of sel y d3 : sel = (fun _ => true) \/ sel = negb -> d2 = y :: d3 -> 1 <= width (snd y) ->
  (forall u, In u pl -> d_enclosing (pt_comment u) = p -> d_preceding (pt_comment u) = Some q ->
     d_following (pt_comment u) = (if is_node (snd y) then Some (fst y) else firstnode d3) ->
     how_eqb (pt_how u) Trailing && path_eqb (pt_path u) q = sel (d_own (pt_comment u))) ->
  gap_clean src t G2 ->
  tracked 0 (map (comment_of G1 (List.length (syn_tokens c))) (placed_at pl Trailing q))
    (filter (fun x => sel (snd x)) (gap_comments src t G2)) /\
  Forall (fun m => c_within m = false) (map (comment_of G1 (List.length (syn_tokens c))) (placed_at pl Trailing q)).
Proof.
  intros Sel Ed Wy T Cl.
  assert (LG : G2 < List.length (syn_tokens s)).
  { pose proof item_inside as B. rewrite Ed in B. destruct y as [yq yc]. rewrite kwidth_cons in B.
    cbn [snd] in Wy. lia. }
  destruct (af_split _ _ _ _ AF G2 LG) as (A1 & A2 & A3 & E & C & Fw & F1 & F2 & F3). specialize (C Cl).
  assert (I1 : forall u, In u A1 -> In u pl) by (intros u I; rewrite E; apply in_or_app; auto).
  assert (I2 : forall u, In u A2 -> In u pl)
    by (intros u I; rewrite E; apply in_or_app; right; apply in_or_app; auto).
  assert (I3 : forall u, In u A3 -> In u pl)
    by (intros u I; rewrite E; apply in_or_app; right; apply in_or_app; auto).
  assert (X : forall u, In u pl -> d_gap (pt_comment u) <> G2 ->
    how_eqb (pt_how u) Trailing && path_eqb (pt_path u) q = false).
  { intros u I N. apply andb_false_iff. destruct (path_eqb (pt_path u) q) eqn:Ep; [left|auto].
    apply path_eqb_eq in Ep.
    pose proof (item_placed s pl (af_settled _ _ _ _ AF) q u Like I Ep) as Pl.
    destruct (pt_how u) eqn:Hu; try reflexivity. exfalso. apply N.
    exact (preceding_gap s pl (af_settled _ _ _ _ AF) p g k cs d1 q c d2 Here Plain Kids Wide u After I Pl). }
  unfold placed_at. rewrite E, !filter_app.
  rewrite (filter_none _ A1), (filter_none _ A3); cycle 1.
  { intros u I. apply X; auto. pose proof (proj1 (Forall_forall _ _) F3 u I) as Q. cbn in Q. lia. }
  { intros u I. apply X; auto. pose proof (proj1 (Forall_forall _ _) F1 u I) as Q. cbn in Q. lia. }
  cbn [app]. rewrite app_nil_r. split.
  2:{ apply Forall_map, Forall_forall. intros u I. apply filter_In in I as [I _].
      pose proof (proj1 (Forall_forall _ _) F2 u I) as Q. cbn in Q. cbn [c_within comment_of].
      rewrite Q. unfold width. rewrite Nat.ltb_irrefl, andb_false_r. reflexivity. }
  destruct (filter_ext_own (fun u => how_eqb (pt_how u) Trailing && path_eqb (pt_path u) q) sel A2) as [Q1 Q2].
  2:{ rewrite <- C, <- Q2. apply flows_tracked. rewrite Q1.
      specialize (Fw ltac:(lia)). destruct Sel as [->|Sel].
      - rewrite filter_all. exact Fw.
      - rewrite Sel. exact (flows_filter _ _ Fw). }
  intros u I.
  destruct (gap_after s (af_plain _ _ _ _ AF) pl (af_settled _ _ _ _ AF) p g k cs d1 q c d2 Here Plain Kids Is_node Wide
      u y d3 Ed Wy (I2 u I) (proj1 (Forall_forall _ _) F2 u I)) as (B1 & B2 & B3). apply T; auto.
Qed.

Lemma leading_of sel : 1 <= kwidth d1 \/ p = [] ->
  (forall u, In u pl -> d_enclosing (pt_comment u) = p -> d_preceding (pt_comment u) = lastnode d1 ->
     d_following (pt_comment u) = Some q ->
     how_eqb (pt_how u) Leading && path_eqb (pt_path u) q = sel (d_own (pt_comment u))) ->
  gap_clean src t G1 ->
  exists x y z, map (comment_of G1 (List.length (syn_tokens c))) (placed_at pl Leading q) = x ++ y ++ z /\
    map c_text y = map fst (filter (fun x => sel (snd x)) (gap_comments src t G1)) /\
    Forall (fun m => c_within m = false) y /\
    ((forall b, q = 0 :: 1 :: b -> is_kind s R_BRACED_EXPRESSIONS b = false) ->
     x = [] /\ Forall (fun m => c_within m = true) z).
Proof.
  intros O T Cl.
  assert (LG : G1 < List.length (syn_tokens s)) by (pose proof item_inside; lia).
  destruct (af_split _ _ _ _ AF G1 LG) as (A1 & A2 & A3 & E & C & Fw & F1 & F2 & F3). specialize (C Cl).
  assert (I1 : forall u, In u A1 -> In u pl) by (intros u I; rewrite E; apply in_or_app; auto).
  assert (I2 : forall u, In u A2 -> In u pl)
    by (intros u I; rewrite E; apply in_or_app; right; apply in_or_app; auto).
  assert (I3 : forall u, In u A3 -> In u pl)
    by (intros u I; rewrite E; apply in_or_app; right; apply in_or_app; auto).
  assert (X : forall u, In u pl -> d_gap (pt_comment u) <> G1 ->
    (forall b, q = 0 :: 1 :: b -> is_kind s R_BRACED_EXPRESSIONS b = false) ->
    how_eqb (pt_how u) Leading && path_eqb (pt_path u) q = true ->
    G1 < d_gap (pt_comment u) < G2).
  { intros u I N NB Hu. apply andb_true_iff in Hu as [Hu Ep]. apply path_eqb_eq in Ep.
    pose proof (item_placed s pl (af_settled _ _ _ _ AF) q u Like I Ep) as Pl.
    destruct (pt_how u); try discriminate Hu. destruct Pl as [Pl|[Pl|[b [Eb Kb]]]].
    - destruct N. exact (following_gap s pl (af_settled _ _ _ _ AF) first_kid_node p g k cs d1 q c d2 Here Plain Kids
        Wide u Before I Pl).
    - exact (gap_inside s pl (af_settled _ _ _ _ AF) p g k cs d1 q c d2 Here Plain Kids Wide u I Pl Inner).
    - rewrite (NB b Eb) in Kb. discriminate Kb. }
  unfold placed_at. rewrite E, !filter_app, !map_app.
  eexists _, _, _. split; [reflexivity|]. split; [|split].
  - rewrite map_map. refine (picked sel _ A2 _ _ C). intros u I.
    destruct (gap_before s (af_plain _ _ _ _ AF) pl (af_settled _ _ _ _ AF) p g k cs d1 q c d2 Here Plain Kids Is_node
        Wide u Before O (I2 u I) (proj1 (Forall_forall _ _) F2 u I)) as (B1 & B2 & B3). apply T; auto.
  - apply Forall_map, Forall_forall. intros u I. apply filter_In in I as [I _].
    pose proof (proj1 (Forall_forall _ _) F2 u I) as Q. cbn in Q. cbn [c_within comment_of].
    rewrite Q, Nat.ltb_irrefl. reflexivity.
  - intros NB. split.
    + rewrite filter_none; [reflexivity|]. intros u I.
      pose proof (proj1 (Forall_forall _ _) F1 u I) as Q. cbn in Q.
      match goal with |- ?b = false => destruct b eqn:Hu; [|reflexivity] end.
      pose proof (X u (I1 u I) ltac:(lia) NB Hu). lia.
    + apply Forall_map, Forall_forall. intros u I. apply filter_In in I as [I Hu].
      pose proof (proj1 (Forall_forall _ _) F3 u I) as Q. cbn in Q.
      pose proof (X u (I3 u I) ltac:(lia) NB Hu) as [B1 B2]. cbn [c_within comment_of]. unfold width in B2.
      apply andb_true_iff. split; apply Nat.ltb_lt; [exact B1|exact B2].
Qed.
End Attach.

(** * The expressions of a sequence *)

Lemma nodes_tight pre l : (pre = [] \/ exists y, pre = [y]) -> Forall (fun x => is_node (snd x) = true) l ->
  tight_before (pre ++ l).
Proof.
  intros Pr F a x b E Nx _. destruct a as [|y a]; [reflexivity|]. exfalso.
  assert (In x l).
  { destruct Pr as [->|[w ->]]; cbn [app] in E.
    - rewrite E. right. apply in_or_app. right. left. reflexivity.
    - injection E as -> ->. apply in_or_app. right. left. reflexivity. }
  rewrite (proj1 (Forall_forall _ _) F x H) in Nx. discriminate Nx.
Qed.
Lemma ended_tight l y : Forall (fun x => is_node (snd x) = true) l -> tight_after (l ++ [y]).
Proof.
  intros F. split; [destruct l; discriminate|]. intros a x b E Fa. destruct a as [|[q c] a]; [reflexivity|].
  cbn in Fa. exfalso. inversion F as [E0|w l' Hw Fl E0]; subst l.
  - cbn in E. injection E as _ E. destruct a; discriminate E.
  - cbn [app] in E. injection E as -> E. cbn [snd] in Hw. rewrite Hw in Fa. discriminate Fa.
Qed.

Section SeatItem.
Variables (rf : bool) (s : syn) (r : root).
Hypothesis H : front_end rf s = Some r.
Notation pl := (attached s rf).

Record item (a : list expr) (e : expr) (b : list expr) (g : nat) (p : path) (g0 : nat) (k : kind) (cs : list syn)
    (q : path) (pre : list (path * syn)) (zq : path) (z : parts) (la : list syn) (x : syn) (lb : list syn) : Prop := {
  it_kids : kids p cs = (pre ++ indexed q 0 la) ++ (List.length a :: q, x)
              :: (indexed q (S (List.length a)) lb ++ [(zq, Tok z)]);
  it_reads : reads pl (List.length a :: q) (g + wide a) x e;
  it_kind : is_kind s R_ARGUMENT (List.length a :: q) = false;
  it_wide : 1 <= width x;
  it_node : is_node x = true;
  it_before : g0 + kwidth (pre ++ indexed q 0 la) = g + wide a;
  it_width : wide (a ++ [e]) = wide a + width x;
  it_la : Forall (fun x => is_node (snd x) = true) (indexed q 0 la);
  it_lb : Forall (fun x => is_node (snd x) = true) (indexed q (S (List.length a)) lb);
  it_lb_wide : Forall (fun x => 1 <= width x) lb;
  it_exprs : Forall (fun x => exists k cs, snd x = Node k cs /\ is_expression k = true) (indexed q 0 la);
  it_after : List.length lb = List.length b;
  it_length : List.length la = List.length a
}.
Lemma seat_item br g a e b p g0 k cs q pre l zq z :
  seat rf s br g (a ++ e :: b) p g0 k cs q pre l zq z ->
  exists la x lb, l = la ++ x :: lb /\ item a e b g p g0 k cs q pre zq z la x lb.
Proof.
  intros [Rc Kd Pn Ks Rd Ct Pr Ls Br].
  destruct (list_split pl SoExpr q a e b _ _ _ Rd) as (la & x & lb & -> & La & Wa & Rx & Sx & Ra & Rb).
  cbn [Nat.add] in Rx, Rb. exists la, x, lb. split; [reflexivity|].
  assert (K : kids p cs = (pre ++ indexed q 0 la) ++ (List.length a :: q, x)
              :: (indexed q (S (List.length a)) lb ++ [(zq, Tok z)])).
  { rewrite Ks, indexed_app, La, <- !app_assoc. reflexivity. }
  destruct (reads_expression pl _ _ _ _ Rx Sx) as (kx & cx & -> & Ex).
  split; auto.
  - destruct (reach_at s _ _ _ (R_kid s p g0 k cs _ _ _ _ Rc Pn K)) as [A _].
    unfold is_kind, node_kind. rewrite A. destruct kx; try discriminate Ex; reflexivity.
  - destruct (reads_solid _ _ _ _ _ Rx) as [_ [W1 W2]]. apply W1, W2. rewrite Sx. discriminate.
  - rewrite kwidth_app, indexed_width, Wa, Ct. lia.
  - unfold wide. rewrite flat_map_app, app_length. cbn [flat_map]. rewrite app_nil_r, (reads_wide _ _ _ _ _ Rx).
    reflexivity.
  - apply indexed_nodes, (list_nodes pl _ _ _ _ _ _ Ra).
  - apply indexed_nodes, (list_nodes pl _ _ _ _ _ _ Rb).
  - exact (list_wide pl _ _ _ _ _ Rb).
  - apply (indexed_forall q (fun x => exists k cs, x = Node k cs /\ is_expression k = true)). clear - Ra. remember SoExpr as so eqn:Es.
    induction Ra as [|? ? ? ? y e' ? ? R1 S1 _ IH]; constructor; auto. apply (reads_expression pl _ _ _ _ R1). congruence.
  - clear - Rb. induction Rb; cbn; auto.
Qed.
End SeatItem.

Section Sequences.
Variables (rf : bool) (src : text) (t : ts) (r : root).
Hypothesis W : well_parsed src t.
Hypothesis F : source_root rf src t = Some r.

Lemma sequence_exprs br g a e b : sequence r br g (a ++ e :: b) -> r_exprs r <> [].
Proof.
  remember (a ++ e :: b) as es eqn:E. destruct 1 as [|g n es I]; intros Q.
  - rewrite Q in E. destruct a; discriminate E.
  - unfold root_nodes in I. rewrite Q in I. destruct I.
Qed.
Lemma root_first s l e : r_exprs r <> [] -> front_end rf s = Some r -> s = Node R_ROOT [Node R_EXPRESSION_LIST l; Tok e] ->
  forall k cs, s = Node k cs -> exists x r, kids [] cs = x :: r /\ is_node (snd x) = true.
Proof.
  intros N H Es k cs E. rewrite Es in E. injection E as <- <-.
  destruct (front_end_reads _ _ _ H) as [cs' [e' [lk [l' [b [q [g' [E1 [E2 [-> [Ke [B [_ R]]]]]]]]]]]]].
  rewrite Es in E1. injection E1 as <-.
  assert (b = [] /\ l' = l) as [-> ->].
  { destruct (r_bom r); [destruct B as [y [-> _]]; discriminate E2|destruct B as [-> _]]. injection E2 as ->. auto. }
  unfold kids. cbn [kids_from]. rewrite spread_list by reflexivity.
  inversion R as [? ? ? ? E3 E4|? ? ? ? x e0 rr es R1 _ _]; subst; [congruence|].
  unfold kids. cbn [kids_from]. rewrite (spread_plain _ _ (reads_plain _ _ _ _ _ R1)).
  destruct (reads_form _ _ _ _ _ R1) as [k [cs [-> _]]]. eexists _, _. split; reflexivity.
Qed.
Lemma first_node s l e : r_exprs r <> [] -> front_end rf s = Some r -> s = Node R_ROOT [Node R_EXPRESSION_LIST l; Tok e] ->
  forall u k cs, In u (attached s rf) -> d_gap (pt_comment u) = 0 -> s = Node k cs ->
  exists x r, kids [] cs = x :: r /\ is_node (snd x) = true.
Proof. intros N H Es u k cs _ _. exact (root_first s l e N H Es k cs). Qed.

Lemma is_kind_at s p g k cs : reach s p g (Node k cs) -> is_kind s k p = true.
Proof.
  intros R. destruct (reach_at s _ _ _ R) as [A _]. unfold is_kind, node_kind. rewrite A. apply kind_eqb_refl.
Qed.
Lemma in_list_default s p g k cs u : Forall (settled s) (attached s rf) ->
  reach s p g (Node k cs) -> sits_in_list k = true -> In u (attached s rf) ->
  d_enclosing (pt_comment u) = p ->
  (forall b, d_preceding (pt_comment u) = Some b -> is_kind s R_ARGUMENT b = false) ->
  (pt_how u, pt_path u) = default_place (pt_comment u).
Proof.
  intros St R K I E P. destruct (proj1 (Forall_forall _ _) St u I) as [_ A].
  pose proof (default_in_list s (pt_comment u) k) as D. rewrite E in D.
  specialize (D (is_kind_at _ _ _ _ _ R) K P). unfold add_comment in A. rewrite D in A.
  destruct (default_place (pt_comment u)) as [h q]. rewrite A. reflexivity.
Qed.
Lemma seat_path_kind s br g es p g0 k cs q pre l zq z : seat rf s br g es p g0 k cs q pre l zq z ->
  forall i y, (br = false \/ i <> 0) -> i :: q = 0 :: 1 :: y -> is_kind s R_BRACED_EXPRESSIONS y = false.
Proof.
  intros St i y C E. injection E as -> Eq. destruct C as [->|C]; [|contradiction].
  destruct St as [Rc Kd Pn Ks Rd Ct Pr Ls [-> [-> [j Ej]]]].
  rewrite Ej in Eq. injection Eq as _ <-. apply (other_kind s R_ROOT); [|reflexivity].
  exact (is_kind_at _ _ _ _ _ Rc).
Qed.

Lemma item_before_none s a e b g p g0 k cs q pre zq z la x lb :
  (pre = [] \/ exists pq y, pre = [(pq, Tok y)]) -> reach s p g0 (Node k cs) -> is_list k = false ->
  item rf s a e b g p g0 k cs q pre zq z la x lb ->
  (a = [] -> lastnode (pre ++ indexed q 0 la) = None) /\
  (a <> [] -> exists y, lastnode (pre ++ indexed q 0 la) = Some y) /\
  forall y, lastnode (pre ++ indexed q 0 la) = Some y -> is_kind s R_ARGUMENT y = false.
Proof.
  intros Pr Rc Pn It. pose proof (it_length _ _ _ _ _ _ _ _ _ _ _ _ _ _ _ _ _ It) as L.
  assert (NP : lastnode pre = None) by (destruct Pr as [->|[pq [y ->]]]; reflexivity).
  repeat split.
  - intros ->. destruct la; [|discriminate L]. cbn [indexed]. rewrite app_nil_r. exact NP.
  - intros N. destruct (exists_last' la) as [->|[la' [x' ->]]].
    { destruct a; [contradiction|discriminate L]. }
    pose proof (it_la _ _ _ _ _ _ _ _ _ _ _ _ _ _ _ _ _ It) as Nd.
    rewrite indexed_app in Nd |- *. rewrite app_assoc, lastnode_app. cbn [indexed lastnode].
    apply Forall_app in Nd as [_ Nd]. apply Forall_inv in Nd. cbn [snd] in Nd. rewrite Nd. eauto.
  - intros y E. rewrite lastnode_app, NP in E.
    destruct (lastnode (indexed q 0 la)) as [y'|] eqn:El; [|discriminate E]. injection E as ->.
    destruct (lastnode_in _ _ El) as (u & c & v & Ei & _).
    pose proof (it_exprs _ _ _ _ _ _ _ _ _ _ _ _ _ _ _ _ _ It) as Ex. rewrite Ei in Ex.
    apply Forall_app in Ex as [_ Ex]. apply Forall_inv in Ex as (k' & cs' & Ec & Ke). cbn [snd] in Ec. subst c.
    pose proof (it_kids _ _ _ _ _ _ _ _ _ _ _ _ _ _ _ _ _ It) as Kk. rewrite Ei in Kk.
    assert (Kk' : kids p cs = (pre ++ u) ++ (y, Node k' cs') :: (v ++ (List.length a :: q, x)
              :: (indexed q (S (List.length a)) lb ++ [(zq, Tok z)]))).
    { rewrite Kk, <- !app_assoc. reflexivity. }
    pose proof (is_kind_at _ _ _ _ _ (R_kid s p g0 k cs _ _ _ _ Rc Pn Kk')) as Ky.
    apply (other_kind s k'); [exact Ky|]. destruct k'; try discriminate Ke; reflexivity.
Qed.

Theorem leading_holds br g a e b : sequence r br g (a ++ e :: b) -> gap_clean src t (g + wide a) ->
  exists x y z, n_lead (notes_of e) = x ++ y ++ z /\
    map c_text y = (match a with [] => all_comments | _ => own_line end) (gap_comments src t (g + wide a)) /\
    Forall (fun c => c_within c = false) y /\
    (br = false \/ a <> [] -> x = [] /\ Forall (fun c => c_within c = true) z).
Proof.
  intros Sq Cl. pose proof (sequence_exprs _ _ _ _ _ Sq) as NE.
  destruct (source_attached rf src t r W F) as (s & H & AF & l0 & e0 & Es).
  destruct (sequence_seat rf s r H _ _ _ Sq) as (p & g0 & k & cs & q & pre & l & zq & z & St).
  destruct (seat_item rf s _ _ _ _ _ _ _ _ _ _ _ _ _ _ St) as (la & x & lb & El & It).
  pose proof St as [Rc Kd Pn Ks Rd Ct Pr Ls Br].
  pose proof It as [Ik Ir Iki Iw In_ Ib Iwi Ila Ilb Ilw Ie Iaf Ile].
  assert (Pr' : pre = [] \/ exists pq y, pre = [(pq, Tok y)]).
  { destruct Pr as [[-> _]|Pr]; auto. }
  destruct (item_before_none s _ _ _ _ _ _ _ _ _ _ _ _ _ _ _ Pr' Rc Pn It) as (Lf & Ll & La).
  rewrite (notes_read _ _ _ _ _ Ir). cbn [note n_lead].
  rewrite <- Ib in *.
  destruct (leading_of src t rf s AF (first_node s l0 e0 NE H Es) p g0 k cs (pre ++ indexed q 0 la)
    (List.length a :: q) x (indexed q (S (List.length a)) lb ++ [(zq, Tok z)]) Rc Pn Ik In_ Iw)
    with (sel := fun o : bool => match a with [] => true | _ => o end)
    as (x1 & y1 & z1 & E1 & E2 & E3 & E4).
  - split; [exact Iki|]. intros j y E. injection E as _ <-. auto.
  - discriminate.
  - apply nodes_tight; [|exact Ila]. destruct Pr' as [->|[pq [y ->]]]; eauto.
  - destruct Pr as [[-> ->]|[pq [y ->]]]; [right; reflexivity|left]. rewrite kwidth_app, kwidth_cons. cbn. lia.
  - intros u I En Pe Fo.
    pose proof (in_list_default s p g0 k cs u (af_settled _ _ _ _ AF) Rc Kd I En) as D.
    rewrite Pe in D. specialize (D La). unfold default_place in D. rewrite Pe, Fo in D.
    destruct a as [|a1 a].
    + rewrite (Lf eq_refl) in D. destruct (d_own (pt_comment u)); injection D as -> ->;
        rewrite path_eqb_refl; reflexivity.
    + destruct (Ll ltac:(discriminate)) as [y Ey]. rewrite Ey in D.
      destruct (d_own (pt_comment u)); injection D as -> ->; [rewrite path_eqb_refl|]; reflexivity.
  - exact Cl.
  - exists x1, y1, z1. split; [exact E1|]. split; [|split; [exact E3|]].
    + rewrite E2. destruct a; [|reflexivity]. rewrite filter_all. reflexivity.
    + intros C. apply E4. intros y Ey. apply (seat_path_kind s _ _ _ _ _ _ _ _ _ _ _ _ St (List.length a) y); [|exact Ey].
      destruct C as [C|C]; [auto|right]. destruct a; [contradiction|discriminate].
Qed.
Lemma tracked_trailing br g a e b : sequence r br g (a ++ e :: b) -> gap_clean src t (g + wide (a ++ [e])) ->
  tracked 0 (n_trail (notes_of e))
    (match b with [] => fun l => l | _ => filter (fun c => negb (snd c)) end (gap_comments src t (g + wide (a ++ [e])))) /\
  Forall (fun c => c_within c = false) (n_trail (notes_of e)).
Proof.
  intros Sq Cl. pose proof (sequence_exprs _ _ _ _ _ Sq) as NE.
  destruct (source_attached rf src t r W F) as (s & H & AF & l0 & e0 & Es).
  destruct (sequence_seat rf s r H _ _ _ Sq) as (p & g0 & k & cs & q & pre & l & zq & z & St).
  destruct (seat_item rf s _ _ _ _ _ _ _ _ _ _ _ _ _ _ St) as (la & x & lb & El & It).
  pose proof St as [Rc Kd Pn Ks Rd Ct Pr Ls Br].
  pose proof It as [Ik Ir Iki Iw In_ Ib Iwi Ila Ilb Ilw Ie Iaf Ile].
  rewrite (notes_read _ _ _ _ _ Ir). cbn [note n_trail].
  rewrite Iwi, Nat.add_assoc in *. rewrite <- Ib in *.
  set (d2 := indexed q (S (List.length a)) lb ++ [(zq, Tok z)]) in *.
  assert (D2 : exists y d3, d2 = y :: d3 /\ 1 <= width (snd y) /\
    match b with
    | [] => (if is_node (snd y) then Some (fst y) else firstnode d3) = None
    | _ => exists f, (if is_node (snd y) then Some (fst y) else firstnode d3) = Some f
    end).
  { unfold d2. destruct lb as [|x' lb], b; try discriminate Iaf; cbn [indexed app].
    - eexists _, _. split; [reflexivity|]. split; [cbn; lia|reflexivity].
    - eexists _, _. split; [reflexivity|]. split; [exact (Forall_inv Ilw)|].
      apply Forall_inv in Ilb. cbn [snd fst] in *. rewrite Ilb. eauto. }
  destruct D2 as (y & d3 & Ed & Wy & Fy).
  destruct (trailing_of src t rf s AF p g0 k cs (pre ++ indexed q 0 la)
    (List.length a :: q) x d2 Rc Pn Ik In_ Iw) with (sel := match b with [] => fun _ : bool => true | _ => negb end)
    (y := y) (d3 := d3) as [T1 T2]; auto; cycle 4.
  - split; [|exact T2]. destruct b; [rewrite filter_all in T1|]; exact T1.
  - split; [exact Iki|]. intros j y' E. injection E as _ <-. auto.
  - apply ended_tight. exact Ilb.
  - destruct b; auto.
  - intros u I En Pe Fo.
    pose proof (in_list_default s p g0 k cs u (af_settled _ _ _ _ AF) Rc Kd I En) as D.
    rewrite Pe in D. specialize (D ltac:(intros ? Q; injection Q as <-; exact Iki)).
    unfold default_place in D. rewrite Pe, Fo in D.
    destruct b as [|b1 b].
    + rewrite Fy in D. destruct (d_own (pt_comment u)); injection D as -> ->;
        rewrite path_eqb_refl; reflexivity.
    + destruct Fy as [f Ef]. rewrite Ef in D.
      destruct (d_own (pt_comment u)); injection D as -> ->; [|rewrite path_eqb_refl]; reflexivity.
Qed.
Lemma tracked_texts ws : forall k cs, tracked k cs ws -> map c_text cs = map fst ws.
Proof.
  induction ws as [|[x o] ws IH]; intros k [|c cs] H; try destruct H; [reflexivity|].
  destruct H0 as [_ H0]. cbn [map fst]. rewrite H, (IH _ _ H0). reflexivity.
Qed.
Theorem trailing_holds br g a e b : sequence r br g (a ++ e :: b) -> gap_clean src t (g + wide (a ++ [e])) ->
  map c_text (n_trail (notes_of e)) =
    (match b with [] => all_comments | _ => end_of_line end) (gap_comments src t (g + wide (a ++ [e]))) /\
  Forall (fun c => c_within c = false) (n_trail (notes_of e)).
Proof.
  intros Sq Cl. destruct (tracked_trailing br g a e b Sq Cl) as [T1 T2]. split; [|exact T2].
  rewrite (tracked_texts _ _ _ T1). destruct b; reflexivity.
Qed.
End Sequences.

(** * Parentheses and empty braces *)

Section Enclosed.
Variables (rf : bool) (src : text) (t : ts) (r : root).
Hypothesis W : well_parsed src t.
Hypothesis F : source_root rf src t = Some r.

Lemma nodes_exprs g e : In (g, e) (root_nodes r) -> r_exprs r <> [].
Proof. intros I Q. unfold root_nodes in I. rewrite Q in I. destruct I. Qed.

Lemma paren_seat s g n b : front_end rf s = Some r -> In (g, EParen n b) (root_nodes r) ->
  exists p a b0 z, reach s p g (Node R_PARENTHESIZED_EXPRESSION [Tok a; b0; Tok z]) /\
    kids p [Tok a; b0; Tok z] = [(0 :: p, Tok a)] ++ (1 :: p, b0) :: [(2 :: p, Tok z)] /\
    reads (attached s rf) (1 :: p) (g + 1) b0 b /\ is_node b0 = true /\ 1 <= width b0 /\
    item_like s (1 :: p) /\ expression_field s 1 p = Some (1 :: p) /\ wide [b] = width b0 /\
    is_kind s R_PARENTHESIZED_EXPRESSION p = true.
Proof.
  intros H I.
  assert (Ps : plain s) by (destruct (front_solid rf s r H) as [cs0 [-> _]]; reflexivity).
  pose proof (proj1 (Forall_forall _ _) (front_sited rf s r H) _ I) as (p & t0 & e0 & R & A & O & E).
  cbn [fst snd] in *.
  assert (e0 = EParen n b) as ->.
  { destruct E as [->|[c E]]; [reflexivity|]. destruct e0; try discriminate E; auto. }
  inversion R as [| | | | | | | | | | | | | | | | |? ? k a b0 ? z Fk Ta Tz Rb Sb| | | | | | |]; subst.
  apply form_paren in Fk as ->. pose proof (reads_plain _ _ _ _ _ Rb) as Pb.
  assert (Rc : reach s p (off s p) (Node R_PARENTHESIZED_EXPRESSION [Tok a; b0; Tok z])).
  { apply at_reach; [exact Ps|exact A|reflexivity]. }
  assert (K : kids p [Tok a; b0; Tok z] = [(0 :: p, Tok a)] ++ (1 :: p, b0) :: [(2 :: p, Tok z)]).
  { unfold kids. cbn [kids_from]. rewrite (spread_plain _ _ Pb). reflexivity. }
  destruct (reads_expression _ _ _ _ _ Rb Sb) as (kb & cb & -> & Eb).
  pose proof (is_kind_at _ _ _ _ _ (R_kid s p _ _ _ _ _ _ _ Rc eq_refl K)) as Kb.
  exists p, a, (Node kb cb), z. repeat split; auto.
  - destruct (reads_solid _ _ _ _ _ Rb) as [_ [W1 W2]]. apply W1, W2. rewrite Sb. discriminate.
  - apply (other_kind s kb); [exact Kb|]. destruct kb; try discriminate Eb; reflexivity.
  - intros j y Q. injection Q as _ <-. right. exact (is_kind_at _ _ _ _ _ Rc).
  - unfold expression_field. rewrite (is_kind_node _ _ _ Kb), Eb. reflexivity.
  - unfold wide. cbn [flat_map]. rewrite app_nil_r. exact (reads_wide _ _ _ _ _ Rb).
  - exact (is_kind_at _ _ _ _ _ Rc).
Qed.

Theorem paren_leading_holds g n b : In (g, EParen n b) (root_nodes r) -> gap_clean src t (g + 1) ->
  exists y z, n_lead (notes_of b) = y ++ z /\
    map c_text y = all_comments (gap_comments src t (g + 1)) /\
    Forall (fun c => c_within c = false) y /\ Forall (fun c => c_within c = true) z.
Proof.
  intros I Cl. pose proof (nodes_exprs _ _ I) as NE.
  destruct (source_attached rf src t r W F) as (s & H & AF & l0 & e0 & Es).
  destruct (paren_seat s g n b H I) as (p & a & b0 & z & Rc & K & Rb & Nb & Wb & Lk & Fe & _ & Kp).
  rewrite (notes_read _ _ _ _ _ Rb). cbn [note n_lead].
  destruct (leading_of src t rf s AF (first_node rf r s l0 e0 NE H Es) p g _ _ _ _ _ _ Rc eq_refl K Nb Wb Lk)
    with (sel := fun _ : bool => true) as (x1 & y1 & z1 & E1 & E2 & E3 & E4).
  - discriminate.
  - rewrite <- (app_nil_r [(0 :: p, Tok a)]). apply nodes_tight; [eauto|constructor].
  - left. cbn. lia.
  - intros u Iu En Pe Fo. destruct (proj1 (Forall_forall _ _) (af_settled _ _ _ _ AF) u Iu) as [_ Au].
    pose proof (paren_rule s (pt_comment u)) as D. rewrite En in D. destruct (D Kp Fe) as [D1 _].
    specialize (D1 Fo). unfold add_comment in Au. rewrite D1 in Au. rewrite Au. cbn [pt_how pt_path].
    rewrite path_eqb_refl. reflexivity.
  - exact Cl.
  - destruct E4 as [-> E4]; [intros y Q; discriminate Q|].
    exists y1, z1. split; [exact E1|]. rewrite filter_all in E2. auto.
Qed.
Theorem paren_trailing_holds g n b : In (g, EParen n b) (root_nodes r) -> gap_clean src t (g + 1 + wide [b]) ->
  map c_text (n_trail (notes_of b)) = all_comments (gap_comments src t (g + 1 + wide [b])) /\
  Forall (fun c => c_within c = false) (n_trail (notes_of b)).
Proof.
  intros I Cl.
  destruct (source_attached rf src t r W F) as (s & H & AF & l0 & e0 & Es).
  destruct (paren_seat s g n b H I) as (p & a & b0 & z & Rc & K & Rb & Nb & Wb & Lk & Fe & Wi & Kp).
  rewrite (notes_read _ _ _ _ _ Rb). cbn [note n_trail]. rewrite Wi in *.
  destruct (trailing_of src t rf s AF p g _ _ _ _ _ _ Rc eq_refl K Nb Wb Lk)
    with (sel := fun _ : bool => true) (y := (2 :: p, Tok z)) (d3 := @nil (path * syn)) as [T1 T2]; auto; cycle 2.
  - rewrite filter_all in T1. split; [exact (tracked_texts _ _ _ T1)|exact T2].
  - apply (ended_tight []). constructor.
  - intros u Iu En Pe Fo. destruct (proj1 (Forall_forall _ _) (af_settled _ _ _ _ AF) u Iu) as [_ Au].
    pose proof (paren_rule s (pt_comment u)) as D. rewrite En in D. destruct (D Kp Fe) as [_ D1].
    specialize (D1 Pe Fo). unfold add_comment in Au. rewrite D1 in Au. rewrite Au. cbn [pt_how pt_path].
    rewrite path_eqb_refl. reflexivity.
Qed.

Theorem empty_braces_hold g n : In (g, EBraced n []) (root_nodes r) -> gap_clean src t (g + 1) ->
  exists x y z, n_dang n = x ++ y ++ z /\
    map c_text y = all_comments (gap_comments src t (g + 1)).
Proof.
  intros I Cl.
  destruct (source_attached rf src t r W F) as (s & H & AF & _).
  pose proof (proj1 (Forall_forall _ _) (front_sited rf s r H) _ I) as (p & t0 & e1 & R & A & O & E).
  cbn [fst snd] in *.
  assert (e1 = EBraced n []) as ->.
  { destruct E as [->|[c E]]; [reflexivity|]. destruct e1; try discriminate E; auto. }
  pose proof (notes_read _ _ _ _ _ R) as Nn. cbn [notes_of] in Nn. rewrite Nn. cbn [note n_dang]. clear Nn.
  inversion R as [| | | | | | | | | | | | | | | |? ? k a lk l z ? Fk Ta Tz Lk Rl| | | | | | | |]; subst.
  apply form_braced in Fk as ->. inversion Rl; subst l.
  assert (Rc : reach s p (off s p) (Node R_BRACED_EXPRESSIONS [Tok a; Node R_EXPRESSION_LIST []; Tok z])).
  { apply at_reach; [exact (af_plain _ _ _ _ AF)|exact A|reflexivity]. }
  set (t0 := Node R_BRACED_EXPRESSIONS [Tok a; Node R_EXPRESSION_LIST []; Tok z]) in *.
  assert (LG : off s p + 1 < List.length (syn_tokens s)).
  { destruct (reach_bound _ _ _ _ Rc) as (u & v & E2 & <-). rewrite E2, !app_length. cbn. lia. }
  destruct (af_split _ _ _ _ AF _ LG) as (A1 & A2 & A3 & E2 & C & Fw & F1 & F2 & F3). specialize (C Cl).
  assert (I2 : forall u, In u A2 -> In u (attached s rf))
    by (intros u J; rewrite E2; apply in_or_app; right; apply in_or_app; auto).
  unfold placed_at. rewrite E2, !filter_app, !map_app.
  eexists _, _, _. split; [reflexivity|]. rewrite map_map.
  etransitivity; [refine (picked (fun _ => true) _ A2 _ _ C)|rewrite filter_all; reflexivity].
  intros u J. pose proof (proj1 (Forall_forall _ _) (af_settled _ _ _ _ AF) u (I2 u J)) as [Ar Au].
  destruct (around_opening s _ Ar) as (e1 & x & e2 & Op & Pe & Fo).
  assert (Op' : opening s (d_gap (pt_comment u)) p [(0 :: p, Tok a)] (2 :: p, Tok z) []).
  { exists (off s p), R_BRACED_EXPRESSIONS, [Tok a; Node R_EXPRESSION_LIST []; Tok z].
    split; [exact Rc|]. split; [reflexivity|]. split; [reflexivity|]. split; [cbn; lia|]. split; [left; cbn; lia|].
    exact (proj1 (Forall_forall _ _) F2 u J). }
  destruct (opening_same s (af_plain _ _ _ _ AF) _ _ _ _ _ _ _ _ _ Op Op') as (Ep & -> & -> & ->).
  cbn in Pe, Fo. destruct Fo as [[Fo _]|Fo]; [discriminate Fo|].
  pose proof (in_list_default rf s p _ _ _ u (af_settled _ _ _ _ AF) Rc eq_refl (I2 u J) Ep) as D.
  rewrite Pe in D. specialize (D ltac:(discriminate)). unfold default_place in D. rewrite Pe, Fo, Ep in D.
  destruct (d_own (pt_comment u)); injection D as -> ->; rewrite path_eqb_refl; reflexivity.
Qed.
End Enclosed.

(** * The file itself *)

Lemma spread_path t : forall p x, In x (spread p t) -> p <> [] -> fst x <> [].
Proof.
  induction t as [k cs IH|y] using syn_ind'; intros p x I N; [|destruct I as [<-|[]]; exact N].
  destruct (is_list k) eqn:L; [|rewrite spread_node in I by exact L; destruct I as [<-|[]]; exact N].
  rewrite spread_list in I by exact L. unfold kids in I. revert I. generalize 0.
  induction IH as [|c r Hc _ IHr]; intros i I; [destruct I|]. cbn [kids_from] in I.
  apply in_app_or in I as [I|I]; [exact (Hc _ _ I ltac:(discriminate))|exact (IHr _ I)].
Qed.
Lemma kids_path p cs x : In x (kids p cs) -> fst x <> [].
Proof.
  unfold kids. generalize 0. induction cs as [|c cs IH]; intros i I; [destruct I|]. cbn [kids_from] in I.
  apply in_app_or in I as [I|I]; [exact (spread_path c _ _ I ltac:(discriminate))|exact (IH _ I)].
Qed.

Section Root.
Variables (rf : bool) (src : text) (t : ts) (r : root).
Hypothesis W : well_parsed src t.
Hypothesis F : source_root rf src t = Some r.
Hypothesis N : r_exprs r <> [].

Lemma nothing_on_root s : front_end rf s = Some r -> attached_facts src t rf s ->
  (exists l e, s = Node R_ROOT [Node R_EXPRESSION_LIST l; Tok e]) ->
  forall u, In u (attached s rf) -> pt_path u <> [].
Proof.
  intros H AF (l0 & e0 & Es) u I E.
  destruct (proj1 (Forall_forall _ _) (af_settled _ _ _ _ AF) u I) as [A Eu].
  pose proof A as (p & g & k & cs & d1 & q & c & d2 & R & L & K & Wc & O & Ep & Eg & Pr & Fo).
  assert (Kp : forall x, In x (d1 ++ (q, c) :: d2) -> fst x <> []) by (rewrite <- K; apply kids_path).
  assert (FN : p = [] -> firstnode (kids p cs) <> None /\ (d1 = [] -> is_node c = true)).
  { intros ->. destruct (reach_root s _ _ R) as [_ Er].
    destruct (root_first rf r s l0 e0 N H Es k cs (eq_sym Er)) as (x & rr & Ek & Nx).
    split; [rewrite Ek; destruct x as [xq xc]; cbn in *; rewrite Nx; discriminate|].
    intros ->. rewrite Ek in K. injection K as -> _. exact Nx. }
  assert (Fo' : d_following (pt_comment u) = if is_node c then Some q else firstnode d2).
  { destruct Fo as [[D1 Nc]|Fo]; [|exact Fo]. destruct O as [O|[_ O]]; [subst d1; cbn in O; lia|].
    rewrite (proj2 (FN O) D1) in Nc. discriminate Nc. }
  assert (P1 : d_preceding (pt_comment u) <> Some []).
  { rewrite Pr. intros Q. destruct (lastnode_in _ _ Q) as (x & y & z & -> & _).
    apply (Kp ([], y)); [|reflexivity]. apply in_or_app. left. apply in_or_app. right. left. reflexivity. }
  assert (P2 : d_following (pt_comment u) <> Some []).
  { rewrite Fo'. destruct (is_node c).
    - intros Q. injection Q as ->. apply (Kp ([], c)); [|reflexivity]. apply in_or_app. right. left. reflexivity.
    - intros Q. destruct (firstnode_in _ _ Q) as (x & y & z & -> & _).
      apply (Kp ([], y)); [|reflexivity]. apply in_or_app. right. right. apply in_or_app. right. left. reflexivity. }
  assert (P3 : p = [] -> d_preceding (pt_comment u) = None -> d_following (pt_comment u) = None -> False).
  { intros Ep0 Q1 Q2. rewrite Pr in Q1. rewrite Fo' in Q2. apply (proj1 (FN Ep0)). rewrite K, firstnode_app.
    assert (firstnode d1 = None) as ->.
    { clear - Q1. induction d1 as [|[x y] d IH]; [reflexivity|]. cbn in *. destruct (lastnode d); [discriminate Q1|].
      destruct (is_node y); [discriminate Q1|auto]. }
    cbn [firstnode]. destruct (is_node c); [discriminate Q2|exact Q2]. }
  assert (RK : is_kind s R_ROOT [] = true) by (rewrite Es; reflexivity).
  assert (DP : pt_path u = snd (default_place (pt_comment u)) \/
     place s (pt_comment u) (pt_how u) (pt_path u) /\ p <> []).
  { destruct p as [|p0 p].
    - left. destruct (reach_root s _ _ R) as [_ Er]. rewrite <- Er in RK.
      unfold is_kind, node_kind in RK. cbn in RK. apply kind_eqb_eq in RK. subst k.
      erewrite <- (in_list_default rf s [] g R_ROOT cs u); [reflexivity|exact (af_settled _ _ _ _ AF)|exact R|reflexivity|exact I|exact Ep|].
      intros b Eb. rewrite Pr in Eb. destruct (lastnode_in _ _ Eb) as (x & y & z & Ed & Ny & _).
      destruct (sequence_seat rf s r H _ _ _ (file_sequence r)) as (p' & g' & k' & cs' & q' & pre & l' & zq & z' & St).
      destruct St as [Rc Kd Pn Ks Rd Ct Prr Ls [-> [-> [j ->]]]].
      destruct (reach_root s _ _ Rc) as [_ Er']. rewrite <- Er in Er'. injection Er' as ->.
      assert (Ex : exists ky cy, y = Node ky cy /\ is_expression ky = true).
      { assert (Iy : In (b, y) (kids [] cs)).
        { rewrite K, Ed. apply in_or_app. left. apply in_or_app. right. left. reflexivity. }
        rewrite Ks in Iy. apply in_app_or in Iy as [Iy|Iy].
        { destruct Prr as [[-> _]|[pq [x0 ->]]]; [destruct Iy|]. destruct Iy as [Iy|[]].
          injection Iy as _ <-. discriminate Ny. }
        apply in_app_or in Iy as [Iy|[Iy|[]]]; [|injection Iy as _ <-; discriminate Ny].
        assert (Fx : Forall (fun x => exists k cs, x = Node k cs /\ is_expression k = true) l').
        { clear - Rd. remember SoExpr as so eqn:Es.
          induction Rd as [|? ? ? ? y e' ? ? R1 S1 _ IH]; constructor; auto.
          apply (reads_expression _ _ _ _ _ R1). congruence. }
        exact (proj1 (Forall_forall _ _) (indexed_forall _ (fun x => exists k cs, x = Node k cs /\ is_expression k = true) _ Fx _) _ Iy). }
      destruct Ex as (ky & cy & -> & Ey).
      assert (Kk : kids [] cs = x ++ (b, Node ky cy) :: (z ++ (q, c) :: d2)).
      { rewrite K, Ed, <- app_assoc. reflexivity. }
      pose proof (is_kind_at _ _ _ _ _ (R_kid s [] g R_ROOT cs _ _ _ _ R L Kk)) as Ky.
      apply (other_kind s ky); [exact Ky|]. destruct ky; try discriminate Ey; reflexivity.
    - destruct u as [h0 q0 d]. cbn [pt_comment pt_path pt_how] in *. unfold add_comment in Eu.
      destruct (place_comment s d) as [[h q']|] eqn:P.
      + right. injection Eu as -> ->. split; [apply place_chosen, P|discriminate].
      + left. destruct (default_place d). injection Eu as _ ->. reflexivity. }
  destruct DP as [D|[D Np]].
  - rewrite E in D. unfold default_place in D.
    destruct (d_own (pt_comment u)), (d_preceding (pt_comment u)) as [pr|] eqn:E1,
      (d_following (pt_comment u)) as [fo|] eqn:E2; cbn [snd] in D;
      first [ apply P1; rewrite <- D; reflexivity | apply P2; rewrite <- D; reflexivity
            | apply P3; [rewrite <- Ep, <- D; reflexivity|reflexivity|reflexivity] ].
  - rewrite E in D.
    assert (Nk : forall k', kind_eqb R_ROOT k' = false -> is_kind s k' [] <> true).
    { intros k' Kk Q. rewrite (other_kind s _ _ _ RK Kk) in Q. discriminate Q. }
    inversion D as [| | |? ? B| | |? ? ? B]; subst; [|exact (Nk R_BRACED_EXPRESSIONS eq_refl B)|exact (Nk R_ARGUMENT eq_refl B)].
    apply Np. congruence.
Qed.

Theorem root_bare : n_lead (r_notes r) = [] /\ n_dang (r_notes r) = [] /\ n_trail (r_notes r) = [] /\ r_bom r = None.
Proof.
  destruct (source_attached rf src t r W F) as (s & H & AF & l0 & e0 & Es).
  pose proof (nothing_on_root s H AF (ex_intro _ l0 (ex_intro _ e0 Es))) as No.
  destruct (front_end_reads _ _ _ H) as [cs [e [lk [l [b [q [g [Er [Ecs [_ [_ [B [En _]]]]]]]]]]]]].
  assert (Em : forall h, placed_at (attached s rf) h [] = []).
  { intros h. apply filter_none. intros x I. pose proof (No x I) as Nx. destruct (pt_path x); [contradiction|].
    apply andb_false_r. }
  rewrite En. unfold root_note, note. cbn [n_lead n_dang n_trail]. rewrite !Em.
  repeat (split; [reflexivity|]).
  destruct (r_bom r); [|reflexivity]. destruct B as [y [-> _]]. rewrite Er in Es. injection Es as Es.
  rewrite Es in Ecs. discriminate Ecs.
Qed.
End Root.
