(** Proofs for LexProps.v: if R reads a text as a list of lexemes, it reads
    every stretch of it as the lexemes of the stretch. *)
From Coq Require Import List NArith Bool Arith Lia String.
From Verif Require Import Text TextFacts SyntaxKind ParseModel ParseSpec FmtTree CommentsModel
  AstModel LexSpec LexProofs LexRunProofs.
Import ListNotations.
Open Scope N_scope.

Notation com := LexSpec.is_comment.

(** Reading [s] from [p] on yields the lexemes [X]. *)
Definition rests (p : place) (s : text) (X : list text) : Prop :=
  exists a p' b, see_all p s = Some (a, p') /\ the_end p' = Some b /\ code (a ++ b) = X.
Definition calm (p : place) : Prop :=
  match p with Between => True | Inside l _ => in_comment l = false end.
(** A comment that is being read ends before the line does. *)
Definition ready (p : place) (s : text) : Prop :=
  marked p /\ (calm p \/ at_line_end s = true).
Definition aligned (p : place) (s : text) (X : list text) : Prop :=
  ready p s /\ rests p s (code (held p) ++ X).
Definition passes (p : place) (u : text) (p' : place) (X : list text) : Prop :=
  exists a, see_all p u = Some (a, p') /\ code a ++ code (held p') = code (held p) ++ X.

Lemma passes_nil p : passes p [] p [].
Proof. exists []. split; [reflexivity|]. rewrite app_nil_r. reflexivity. Qed.
Lemma passes_app p u q X v r Y : passes p u q X -> passes q v r Y -> passes p (u ++ v) r (X ++ Y).
Proof.
  intros [a [A1 A2]] [b [B1 B2]]. exists (a ++ b). rewrite see_all_app, A1, B1. split; [reflexivity|].
  rewrite code_app, <- app_assoc, B2, app_assoc, A2, app_assoc. reflexivity.
Qed.

Lemma first_lexeme s : forall l t X, marked (Inside l t) -> in_comment l = false ->
  rests (Inside l t) s X ->
  exists y s' l' X', s = y ++ s' /\ see_all (Inside l t) y = Some ([], Inside l' (t ++ y)) /\
    complete_lexeme l' = true /\ in_comment l' = false /\
    (forall c r, s' = c :: r -> extend l' c = None) /\ X = (t ++ y) :: X'.
Proof.
  induction s as [|c s IH]; intros l t X M C [a [p' [b [E1 [E2 E3]]]]].
  - cbn [see_all] in E1. injection E1 as <- <-. cbn [the_end] in E2.
    destruct (complete_lexeme l) eqn:Cl; [|discriminate]. injection E2 as <-.
    exists [], [], l, []. rewrite (app_nil_r t). split; [reflexivity|]. split; [reflexivity|].
    split; [exact Cl|]. split; [exact C|]. split; [discriminate|]. cbn [app code filter] in E3.
    destruct M as [_ M]. rewrite <- M, C in E3. symmetry. exact E3.
  - cbn [see_all see] in E1. destruct (extend l c) as [l1|] eqn:X1.
    + destruct (see_all (Inside l1 (t ++ [c])) s) as [[a1 p1]|] eqn:S1; [|discriminate].
      injection E1 as <- <-.
      assert (M1 : marked (Inside l1 (t ++ [c]))).
      { eapply see_marked; [exact M|]. cbn [see]. rewrite X1. reflexivity. }
      assert (C1 : in_comment l1 = false) by (rewrite (extend_comment _ _ _ X1); exact C).
      destruct (IH l1 (t ++ [c]) X M1 C1) as [y [s' [l' [X' [G1 [G2 [G3 [G4 [G5 G6]]]]]]]]].
      { exists a1, p1, b. auto. }
      rewrite <- app_assoc in G2, G6. exists (c :: y), s', l', X'.
      split; [rewrite G1; reflexivity|]. split; [cbn [see_all see]; rewrite X1, G2; reflexivity|].
      auto.
    + destruct (complete_lexeme l) eqn:Cl; [|discriminate].
      destruct (begin c) as [p1|] eqn:B; [|discriminate].
      destruct (see_all p1 s) as [[a1 p2]|] eqn:S1; [|discriminate]. injection E1 as <- <-.
      exists [], (c :: s), l, (code (a1 ++ b)). rewrite (app_nil_r t). split; [reflexivity|]. split; [reflexivity|].
      split; [exact Cl|]. split; [exact C|]. split; [intros d r E; injection E as <- _; exact X1|].
      cbn [app code filter] in E3. destruct M as [_ M]. rewrite <- M, C in E3. symmetry. exact E3.
Qed.
Lemma app_self {A} (t y : list A) : t = t ++ y -> y = [].
Proof. intros H. rewrite <- (app_nil_r t) in H at 1. apply app_inv_head in H. auto. Qed.
Lemma calm_held p : marked p -> calm p -> code (held p) = held p.
Proof.
  destruct p as [|l t]; [reflexivity|]. intros [_ M] C. cbn [calm held code filter] in *.
  rewrite <- M, C. reflexivity.
Qed.
Lemma aligned_stops p s X : marked p -> calm p -> rests p s (code (held p) ++ X) ->
  (forall c r, s = c :: r -> blocks p c) /\ (s = [] -> exists b, the_end p = Some b).
Proof.
  intros M C R. destruct p as [|l t]; [split; [intros; exact I|intros _; exists []; reflexivity]|].
  rewrite (calm_held _ M C) in R. cbn [held app] in R.
  destruct (first_lexeme s l t _ M C R) as [y [s' [l' [X' [G1 [G2 [G3 [G4 [G5 G6]]]]]]]]].
  injection G6 as G6 _. apply app_self in G6. subst y. cbn [app] in G1. subst s'.
  cbn [see_all] in G2. injection G2 as <-. split.
  - intros c r ->. split; [exact G3|]. exact (G5 c r eq_refl).
  - intros _. cbn [the_end]. rewrite G3. eauto.
Qed.
Lemma aligned_between p c s X : marked p -> calm p -> rests p (c :: s) (code (held p) ++ X) ->
  blocks p c /\ rests Between (c :: s) X.
Proof.
  intros M C R. destruct (aligned_stops p _ X M C R) as [B _]. specialize (B c s eq_refl).
  split; [exact B|]. destruct R as [a [p' [b [E1 [E2 E3]]]]]. rewrite (enter p c s B) in E1.
  destruct (see_all Between (c :: s)) as [[x q]|] eqn:S; [|discriminate]. injection E1 as <- <-.
  exists x, q, b. split; [exact S|]. split; [exact E2|].
  rewrite <- app_assoc, code_app in E3. apply app_inv_head in E3. exact E3.
Qed.

(** One lexeme. *)
Definition plain_start (c : char) : bool := negb (blank c) && negb (c =? HASH).
Definition plain_text (x : text) : Prop := starts_with plain_start x.
Lemma not_at_line_end c r : blank c = false -> at_line_end (c :: r) = false.
Proof.
  intros B. cbn [at_line_end]. destruct (N.eqb_spec c LF); [subst; discriminate|].
  destruct (N.eqb_spec c CR); [subst; discriminate|]. reflexivity.
Qed.
Lemma step_lexeme p x s X : plain_text x -> aligned p (x ++ s) (x :: X) ->
  exists l, whole x l /\ in_comment l = false /\ passes p x (Inside l x) [x] /\
    calm p /\ (exists c r, x = c :: r /\ blocks p c) /\ aligned (Inside l x) s X.
Proof.
  intros P [[M Q] R]. destruct x as [|c x]; [contradiction|]. cbn [plain_text starts_with] in P.
  unfold plain_text in P. cbn [starts_with] in P. unfold plain_start in P. apply andb_true_iff in P.
  destruct P as [Bl Ha]. apply negb_true_iff in Bl, Ha.
  assert (C : calm p).
  { destruct Q as [C|Q]; [exact C|]. cbn [app] in Q. rewrite (not_at_line_end c _ Bl) in Q. discriminate. }
  cbn [app] in R. destruct (aligned_between p c (x ++ s) _ M C R) as [B R1].
  destruct R1 as [a [p' [b [E1 [E2 E3]]]]]. cbn [see_all see] in E1.
  destruct (begin c) as [p1|] eqn:Be; [|discriminate].
  assert (exists l0, p1 = Inside l0 [c] /\ in_comment l0 = false) as [l0 [-> C0]].
  { unfold begin in Be. rewrite Bl in Be. destruct (start c) as [l0|] eqn:St; [|discriminate].
    injection Be as <-. exists l0. split; [reflexivity|]. rewrite (start_comment c l0 St). exact Ha. }
  destruct (see_all (Inside l0 [c]) (x ++ s)) as [[a1 p2]|] eqn:S1; [|discriminate].
  injection E1 as <- <-. cbn [app] in E3.
  assert (M0 : marked (Inside l0 [c])) by exact (begin_marked c _ Be).
  destruct (first_lexeme (x ++ s) l0 [c] (( c :: x) :: X) M0 C0) as [y [s' [l' [X' [G1 [G2 [G3 [G4 [G5 G6]]]]]]]]].
  { exists a1, p2, b. auto. }
  injection G6 as G6 G7. subst y X'. apply app_inv_head in G1. subst s'.
  assert (Sb : see_all Between (c :: x) = Some ([], Inside l' (c :: x))).
  { cbn [see_all see]. rewrite Be, G2. reflexivity. }
  exists l'. split; [split; [exact Sb|exact G3]|]. split; [exact G4|].
  assert (Ml : marked (Inside l' (c :: x))).
  { eapply see_all_marked; [|exact Sb]. exact I. }
  assert (Hc : com (c :: x) = false).
  { destruct Ml as [_ Ml]. rewrite <- Ml. exact G4. }
  split; [|split; [exact C|split; [eauto|]]].
  - exists (held p). rewrite (enter p c x B), Sb, app_nil_r. split; [reflexivity|].
    cbn [held code filter]. rewrite Hc. reflexivity.
  - split; [split; [exact Ml|left; exact G4]|].
    rewrite see_all_app, G2 in S1. destruct (see_all (Inside l' ([c] ++ x)) s) as [[a2 p3]|] eqn:S2; [|discriminate].
    injection S1 as <- <-. cbn [app] in E3. exists a2, p3, b. split; [exact S2|]. split; [exact E2|].
    rewrite E3. cbn [held code filter]. rewrite Hc. reflexivity.
Qed.

(** White space and comments. *)
Lemma gap_blank c : gap_char c = true -> blank c = true.
Proof.
  unfold gap_char, is_whitespace, is_newline. rewrite !orb_true_iff, !N.eqb_eq.
  intros [[[[[H|H]|H]|H]|H]|[H|H]]; subst; reflexivity.
Qed.
Lemma step_gap p c s X : gap_char c = true -> aligned p (c :: s) X ->
  exists p', passes p [c] p' [] /\ aligned p' s X.
Proof.
  intros G [[M Q] R]. pose proof (gap_blank c G) as B.
  destruct p as [|l t]; [|destruct (in_comment l) eqn:C].
  - exists Between. split.
    + exists []. cbn [see_all see]. unfold begin. rewrite B. split; reflexivity.
    + split; [split; [exact I|left; exact I]|]. destruct R as [a [p' [b [E1 E2]]]].
      cbn [see_all see] in E1. unfold begin in E1. rewrite B in E1.
      destruct (see_all Between s) as [[x q]|] eqn:S; [|discriminate]. injection E1 as <- <-.
      exists x, q, b. auto.
  - destruct l; try discriminate. destruct Q as [Q|Q]; [discriminate Q|].
    assert (Hc : com t = true) by (destruct M as [_ M]; rewrite <- M; reflexivity).
    cbn [held code filter] in R. rewrite Hc in R. cbn [negb app] in R.
    cbn [at_line_end] in Q. destruct (c =? LF) eqn:El.
    + exists Between. apply N.eqb_eq in El. subst c. split.
      * exists [t]. split; [reflexivity|]. cbn [held code filter]. rewrite Hc. reflexivity.
      * split; [split; [exact I|left; exact I]|]. destruct R as [a [p' [b [E1 [E2 E3]]]]].
        cbn [see_all see extend complete_lexeme] in E1.
        change (LF =? LF) with true in E1. cbn iota in E1. change (begin LF) with (Some Between) in E1.
        cbn iota in E1. destruct (see_all Between s) as [[x q]|] eqn:S; [|discriminate]. injection E1 as <- <-.
        exists x, q, b. split; [exact S|]. split; [exact E2|]. cbn [app code filter] in E3.
        rewrite Hc in E3. exact E3.
    + cbn [orb] in Q. apply andb_true_iff in Q. destruct Q as [Qc Qs].
      assert (Xc : extend LComment c = Some LComment) by (cbn [extend]; rewrite El; reflexivity).
      exists (Inside LComment (t ++ [c])).
      assert (Hc' : com (t ++ [c]) = true) by (destruct t; [discriminate|exact Hc]).
      split.
      * exists []. cbn [see_all see]. rewrite Xc. split; [reflexivity|]. cbn [held code filter].
        rewrite Hc, Hc'. reflexivity.
      * split; [split|].
        -- split; [destruct t; discriminate|]. cbn [in_comment]. symmetry. exact Hc'.
        -- right. destruct s as [|d s]; [discriminate|]. cbn [at_line_end]. rewrite Qs. reflexivity.
        -- destruct R as [a [p' [b [E1 [E2 E3]]]]]. cbn [see_all see] in E1. rewrite Xc in E1.
           destruct (see_all (Inside LComment (t ++ [c])) s) as [[x q]|] eqn:S; [|discriminate].
           injection E1 as <- <-. exists x, q, b. cbn [held code filter]. rewrite Hc'. auto.
  - assert (Ca : calm (Inside l t)) by exact C.
    destruct (aligned_between _ c s X M Ca R) as [Bk R1].
    assert (Hs : see (Inside l t) c = Some ([t], Between)).
    { rewrite (see_blocked _ _ Bk). unfold begin. rewrite B. reflexivity. }
    exists Between. split.
    + exists [t]. cbn [see_all]. rewrite Hs. split; [reflexivity|].
      cbn [held code filter]. rewrite !app_nil_r. reflexivity.
    + split; [split; [exact I|left; exact I]|]. destruct R1 as [a [p' [b [E1 E2]]]].
      cbn [see_all see] in E1. unfold begin in E1. rewrite B in E1.
      destruct (see_all Between s) as [[x q]|] eqn:S; [|discriminate]. injection E1 as <- <-.
      exists x, q, b. auto.
Qed.
Lemma step_gaps u : forall p s X, forallb gap_char u = true -> aligned p (u ++ s) X ->
  exists p', passes p u p' [] /\ aligned p' s X.
Proof.
  induction u as [|c u IH]; intros p s X G A; [exists p; split; [apply passes_nil|exact A]|].
  cbn [forallb] in G. apply andb_true_iff in G. destruct G as [Gc Gu].
  destruct (step_gap p c (u ++ s) X Gc A) as [p1 [P1 A1]].
  destruct (IH p1 s X Gu A1) as [p2 [P2 A2]]. exists p2. split; [|exact A2].
  change (c :: u) with ([c] ++ u). change (@nil text) with (@nil text ++ []).
  exact (passes_app _ _ _ _ _ _ _ P1 P2).
Qed.
Lemma comment_run w : forall t, no_lf w = true ->
  see_all (Inside LComment t) w = Some ([], Inside LComment (t ++ w)).
Proof.
  induction w as [|c w IH]; intros t N; [rewrite app_nil_r; reflexivity|].
  cbn [no_lf forallb] in N. apply andb_true_iff in N. destruct N as [Nc Nw]. apply negb_true_iff in Nc.
  cbn [see_all see extend]. rewrite Nc, (IH _ Nw), <- app_assoc. reflexivity.
Qed.
Lemma step_comment p w s X : no_lf w = true -> at_line_end s = true -> aligned p (HASH :: w ++ s) X ->
  exists p', passes p (HASH :: w) p' [] /\ aligned p' s X.
Proof.
  intros N E [[M Q] R].
  assert (C : calm p) by (destruct Q as [C|Q]; [exact C|discriminate Q]).
  destruct (aligned_between p HASH (w ++ s) X M C R) as [B R1].
  exists (Inside LComment (HASH :: w)).
  assert (S : see_all Between (HASH :: w) = Some ([], Inside LComment (HASH :: w))).
  { cbn [see_all see]. change (begin HASH) with (Some (Inside LComment [HASH])). cbn iota.
    rewrite (comment_run w [HASH] N). reflexivity. }
  split.
  - exists (held p). rewrite (enter p HASH w B), S, !app_nil_r. split; reflexivity.
  - split; [split; [split; [discriminate|reflexivity]|right; exact E]|].
    destruct R1 as [a [p' [b [E1 [E2 E3]]]]].
    change (HASH :: w ++ s) with ((HASH :: w) ++ s) in E1. rewrite see_all_app, S in E1.
    destruct (see_all (Inside LComment (HASH :: w)) s) as [[x q]|] eqn:S2; [|discriminate].
    injection E1 as <- <-. exists x, q, b. auto.
Qed.

(** Trivia: every comment ends before its line does. *)
Fixpoint trivia_ok (xs : list (tkind * text)) (rest : text) : Prop :=
  match xs with
  | [] => True
  | x :: r =>
    piece_ok x = true /\ (fst x = Comment -> at_line_end (pieces_text r ++ rest) = true) /\
    trivia_ok r rest
  end.
Lemma piece_gap x : piece_ok x = true -> fst x <> Comment -> forallb gap_char (snd x) = true.
Proof.
  destruct x as [k x]. unfold piece_ok. cbn [fst snd]. destruct k; intros H N.
  - rewrite !andb_true_iff in H. tauto.
  - rewrite !orb_true_iff in H. destruct H as [[H|H]|H]; apply text_eqb_eq in H; subst; reflexivity.
  - contradiction.
Qed.
Lemma step_trivia xs : forall p s X, trivia_ok xs s -> aligned p (pieces_text xs ++ s) X ->
  exists p', passes p (pieces_text xs) p' [] /\ aligned p' s X.
Proof.
  induction xs as [|[k x] xs IH]; intros p s X T A; [exists p; split; [apply passes_nil|exact A]|].
  destruct T as [Pk [Cm T]]. unfold pieces_text in *. cbn [flat_map snd] in *. fold (pieces_text xs) in *.
  rewrite <- app_assoc in A.
  assert (St : exists p1, passes p x p1 [] /\ aligned p1 (pieces_text xs ++ s) X).
  { destruct (tkind_eqb k Comment) eqn:Ek.
    - destruct k; try discriminate. specialize (Cm eq_refl). cbn [piece_ok fst snd] in Pk.
      apply andb_true_iff in Pk. destruct Pk as [P1 P2]. destruct x as [|c w]; [discriminate|].
      apply N.eqb_eq in P1. subst c. cbn [no_lf forallb] in P2. apply andb_true_iff in P2. destruct P2 as [_ P2].
      exact (step_comment p w _ X P2 Cm A).
    - apply (step_gaps x p _ X); [|exact A]. apply (piece_gap (k, x) Pk). intros E. cbn [fst] in E.
      subst k. discriminate. }
  destruct St as [p1 [P1 A1]]. destruct (IH p1 s X T A1) as [p2 [P2 A2]]. exists p2. split; [|exact A2].
  change (@nil text) with (@nil text ++ []). exact (passes_app _ _ _ _ _ _ _ P1 P2).
Qed.

(** * Lexemes with the trivia around them *)

Record unit := { u_lead : list (tkind * text); u_lex : list text; u_trail : list (tkind * text) }.
Definition unit_text (u : unit) : text := List.concat (u_lex u).
Definition unit_whole (u : unit) : text := pieces_text (u_lead u) ++ unit_text u ++ pieces_text (u_trail u).
Definition unit_ok (u : unit) : Prop := Forall plain_text (u_lex u) /\ u_lex u <> [].
Definition all_text (us : list unit) : text := flat_map unit_whole us.
Definition all_lex (us : list unit) : list text := flat_map u_lex us.
Fixpoint units_trivia (us : list unit) (rest : text) : Prop :=
  match us with
  | [] => True
  | u :: r =>
    trivia_ok (u_lead u) (unit_text u ++ pieces_text (u_trail u) ++ all_text r ++ rest) /\
    trivia_ok (u_trail u) (all_text r ++ rest) /\ units_trivia r rest
  end.

Lemma step_lexemes xs : forall p s X, Forall plain_text xs -> aligned p (List.concat xs ++ s) (xs ++ X) ->
  exists p', passes p (List.concat xs) p' xs /\ aligned p' s X /\
    (xs <> [] -> calm p /\ (forall c r, List.concat xs = c :: r -> blocks p c) /\
       exists l z, p' = Inside l z /\ com z = false /\ complete_lexeme l = true).
Proof.
  induction xs as [|x xs IH]; intros p s X F A.
  - exists p. split; [apply passes_nil|]. split; [exact A|]. intros N. contradiction.
  - inversion F as [|? ? Px Fx]; subst. cbn [List.concat] in *. rewrite <- app_assoc in A.
    cbn [app] in A. destruct (step_lexeme p x _ _ Px A) as [l [W [C [P1 [Cp [Bk A1]]]]]].
    destruct (IH _ s X Fx A1) as [p2 [P2 [A2 K]]]. exists p2. split; [|split; [exact A2|intros _]].
    + exact (passes_app _ _ _ _ _ _ _ P1 P2).
    + split; [exact Cp|]. split.
      * destruct Bk as [c [r [-> B]]]. intros c' r' E. injection E as <- _. exact B.
      * destruct xs as [|y ys].
        -- cbn [List.concat] in P2. destruct P2 as [a [S _]]. cbn [see_all] in S. injection S as _ <-.
           exists l, x. split; [reflexivity|]. destruct A1 as [[[_ M] _] _].
           split; [rewrite <- M; exact C|exact (proj2 W)].
        -- apply K. discriminate.
Qed.
Lemma step_unit u p s X : unit_ok u ->
  trivia_ok (u_lead u) (unit_text u ++ pieces_text (u_trail u) ++ s) -> trivia_ok (u_trail u) s ->
  aligned p (unit_whole u ++ s) (u_lex u ++ X) ->
  exists p', passes p (unit_whole u) p' (u_lex u) /\ aligned p' s X.
Proof.
  intros [F N] T1 T2 A. unfold unit_whole in *. rewrite <- !app_assoc in A.
  destruct (step_trivia _ p _ _ T1 A) as [p1 [P1 A1]].
  destruct (step_lexemes _ p1 _ X F A1) as [p2 [P2 [A2 _]]].
  destruct (step_trivia _ p2 _ _ T2 A2) as [p3 [P3 A3]]. exists p3. split; [|exact A3].
  change (u_lex u) with ([] ++ u_lex u). apply (passes_app _ _ _ _ _ _ _ P1).
  rewrite <- (app_nil_r (u_lex u)). exact (passes_app _ _ _ _ _ _ _ P2 P3).
Qed.
Lemma step_units us : forall p s X, Forall unit_ok us -> units_trivia us s ->
  aligned p (all_text us ++ s) (all_lex us ++ X) ->
  exists p', passes p (all_text us) p' (all_lex us) /\ aligned p' s X.
Proof.
  induction us as [|u us IH]; intros p s X F T A; [exists p; split; [apply passes_nil|exact A]|].
  inversion F as [|? ? Fu Fr]; subst. destruct T as [T1 [T2 T3]].
  unfold all_text, all_lex in A |- *. cbn [flat_map] in A |- *. fold (all_text us) in A |- *. fold (all_lex us) in A |- *.
  rewrite <- !app_assoc in A. destruct (step_unit u p _ _ Fu T1 T2 A) as [p1 [P1 A1]].
  destruct (IH p1 s X Fr T3 A1) as [p2 [P2 A2]]. exists p2. split; [|exact A2].
  exact (passes_app _ _ _ _ _ _ _ P1 P2).
Qed.

(** Without the trivia at both ends. *)
Fixpoint inner_text (us : list unit) : text :=
  match us with
  | [] => []
  | u :: r =>
    unit_text u ++
    match r with [] => [] | v :: _ => pieces_text (u_trail u) ++ pieces_text (u_lead v) ++ inner_text r end
  end.
Fixpoint inner_trivia (us : list unit) (rest : text) : Prop :=
  match us with
  | [] => True
  | u :: r =>
    match r with
    | [] => True
    | v :: _ =>
      trivia_ok (u_trail u) (pieces_text (u_lead v) ++ inner_text r ++ rest) /\
      trivia_ok (u_lead v) (inner_text r ++ rest) /\ inner_trivia r rest
    end
  end.
Definition last_trail (us : list unit) : list (tkind * text) :=
  match rev us with u :: _ => u_trail u | [] => [] end.
Lemma last_trail_cons u v r : last_trail (u :: v :: r) = last_trail (v :: r).
Proof.
  unfold last_trail. cbn [rev]. destruct (rev r ++ [v]) eqn:E; [destruct (rev r); discriminate|]. reflexivity.
Qed.
Lemma all_inner us : match us with
  | [] => True
  | u :: _ => all_text us = pieces_text (u_lead u) ++ inner_text us ++ pieces_text (last_trail us)
  end.
Proof.
  induction us as [|u [|v r] IH]; [exact I| |].
  - unfold all_text. cbn [flat_map inner_text last_trail rev app]. unfold unit_whole.
    rewrite !app_nil_r. reflexivity.
  - unfold all_text in *. cbn [flat_map] in *. rewrite IH. rewrite last_trail_cons. unfold unit_whole.
    cbn [inner_text]. rewrite <- !app_assoc. reflexivity.
Qed.
Lemma units_inner us : forall rest, units_trivia us rest -> inner_trivia us (pieces_text (last_trail us) ++ rest).
Proof.
  induction us as [|u [|v r] IH]; intros rest T; [exact I|exact I|].
  destruct T as [_ [T2 T3]]. cbn [inner_trivia]. rewrite last_trail_cons.
  pose proof (all_inner (v :: r)) as E. cbv beta iota in E. rewrite E in T2. rewrite <- !app_assoc in T2.
  split; [exact T2|]. split.
  - destruct T3 as [T3 _].
    pose proof (f_equal (fun x => x ++ rest) E) as E'. unfold all_text in E'. cbn [flat_map] in E'.
    fold (all_text r) in E'. unfold unit_whole in E'. rewrite <- !app_assoc in E'.
    apply app_inv_head in E'. rewrite <- E'. exact T3.
  - apply IH, T3.
Qed.
Lemma see_inner us : forall s X, Forall unit_ok us -> us <> [] -> inner_trivia us s ->
  forall p, aligned p (inner_text us ++ s) (all_lex us ++ X) ->
  calm p /\ (exists c r, inner_text us = c :: r /\ blocks p c /\ plain_start c = true) /\
  exists L l z, see_all Between (inner_text us) = Some (L, Inside l z) /\ complete_lexeme l = true /\
    com z = false /\ code L ++ [z] = all_lex us.
Proof.
  induction us as [|u us IH]; intros s X F N T p A; [contradiction|]. clear N.
  inversion F as [|? ? [Fu Nu] Fr]; subst. unfold all_lex in A |- *. cbn [flat_map] in A |- *. fold (all_lex us) in A |- *.
  cbn [inner_text] in A |- *. rewrite <- !app_assoc in A.
  destruct (step_lexemes (u_lex u) p _ _ Fu A) as [p1 [P1 [A1 K]]]. specialize (K Nu).
  destruct K as [Cp [Bk [l [z [-> [Cz Cl]]]]]].
  assert (Cons : exists c r, unit_text u = c :: r /\ plain_start c = true).
  { unfold unit_text. destruct (u_lex u) as [|x xs]; [contradiction|]. inversion Fu as [|? ? Hx _]; subst.
    destruct x as [|c x]; [contradiction|]. exists c, (x ++ List.concat xs). split; [reflexivity|exact Hx]. }
  destruct Cons as [c [r [Ec Pc]]]. pose proof (Bk c r Ec) as B.
  split; [exact Cp|]. split.
  { exists c. eexists. split; [rewrite Ec; reflexivity|]. split; [exact B|exact Pc]. }
  assert (S1 : exists L1, see_all Between (unit_text u) = Some (L1, Inside l z) /\ code L1 ++ [z] = u_lex u).
  { destruct P1 as [a [S E]]. fold (unit_text u) in S. rewrite Ec, (enter p c r B) in S.
    destruct (see_all Between (c :: r)) as [[x q]|] eqn:Sb; [|discriminate]. injection S as <- ->.
    rewrite code_app, <- app_assoc in E. apply app_inv_head in E. exists x. rewrite Ec.
    split; [exact Sb|]. cbn [held code filter] in E. rewrite Cz in E. exact E. }
  destruct S1 as [L1 [S1 E1]]. destruct us as [|v us].
  - exists L1, l, z. unfold all_lex. cbn [flat_map]. rewrite !app_nil_r. auto.
  - destruct T as [T1 [T2 T3]]. rewrite <- !app_assoc in A1.
    destruct (step_trivia _ _ _ _ T1 A1) as [p2 [P2 A2]].
    destruct (step_trivia _ _ _ _ T2 A2) as [p3 [P3 A3]].
    destruct (IH s X Fr ltac:(discriminate) T3 p3 A3) as [C3 [[c3 [r3 [Ec3 [B3 _]]]] [L3 [l3 [z3 [S3 [Cl3 [Cz3 E3]]]]]]]].
    destruct P2 as [a2 [S2 Q2]], P3 as [a3 [S3' Q3]].
    exists (L1 ++ a2 ++ a3 ++ held p3 ++ L3), l3, z3.
    split; [|split; [exact Cl3|split; [exact Cz3|]]].
    + rewrite see_all_app, S1, see_all_app, S2, see_all_app, S3', Ec3, (enter p3 c3 r3 B3), <- Ec3, S3.
      reflexivity.
    + rewrite !code_app, <- !app_assoc, E3, <- E1.
      rewrite (app_assoc (code a3)), Q3, app_nil_r, (app_assoc (code a2)), Q2, app_nil_r.
      cbn [held code filter]. rewrite Cz. cbn [negb]. rewrite <- app_assoc. reflexivity.
Qed.

(** The stretch: its lexemes, the first one where it starts. *)
Definition first_and_last (s : text) (X : list text) : Prop :=
  exists L, lex s = Some L /\ code L = X /\ com (last L []) = false /\
    match L with [] => s = [] | x :: _ => com x = false /\ exists r, s = x ++ r end.
Lemma see_prefix s : forall l t L p, marked (Inside l t) ->
  see_all (Inside l t) s = Some (L, p) -> match L ++ held p with
  | [] => False
  | x :: _ => exists y r, s = y ++ r /\ x = t ++ y
  end.
Proof.
  induction s as [|c s IH]; intros l t L p M H; cbn [see_all see] in H.
  - injection H as <- <-. cbn [app held]. exists [], []. rewrite (app_nil_r t). auto.
  - destruct (extend l c) as [l1|] eqn:X1.
    + destruct (see_all (Inside l1 (t ++ [c])) s) as [[a1 p1]|] eqn:S1; [|discriminate].
      injection H as <- <-. cbn [app].
      assert (M1 : marked (Inside l1 (t ++ [c]))).
      { eapply see_marked; [exact M|]. cbn [see]. rewrite X1. reflexivity. }
      specialize (IH _ _ _ _ M1 S1). destruct (a1 ++ held p1) as [|x L]; [exact IH|].
      destruct IH as [y [r [-> ->]]]. exists (c :: y), r. rewrite <- app_assoc. auto.
    + destruct (complete_lexeme l) eqn:Cl; [|discriminate].
      destruct (begin c) as [p1|]; [|discriminate].
      destruct (see_all p1 s) as [[a1 p2]|]; [|discriminate]. injection H as <- <-.
      cbn [app]. exists [], (c :: s). rewrite (app_nil_r t). auto.
Qed.
Lemma stretch us s X p : Forall unit_ok us -> us <> [] -> inner_trivia us s ->
  aligned p (inner_text us ++ s) (all_lex us ++ X) -> first_and_last (inner_text us) (all_lex us).
Proof.
  intros F N T A. destruct (see_inner us s X F N T p A) as [_ [[c [r [Ec [_ Pc]]]] [L [l [z [S [Cl [Cz E]]]]]]]].
  exists (L ++ [z]). unfold lex. rewrite S. cbn [the_end]. rewrite Cl. split; [reflexivity|].
  split; [rewrite code_app; cbn [code filter]; rewrite Cz; exact E|].
  split; [rewrite last_last; exact Cz|].
  rewrite Ec in S. cbn [see_all see] in S. unfold plain_start in Pc. apply andb_true_iff in Pc.
  destruct Pc as [Pb Ph]. apply negb_true_iff in Pb, Ph. destruct (begin c) as [p1|] eqn:Be; [|discriminate].
  pose proof (begin_marked c p1 Be) as M1. unfold begin in Be. rewrite Pb in Be.
  destruct (start c) as [l0|]; [|discriminate]. injection Be as <-.
  destruct (see_all (Inside l0 [c]) r) as [[a q]|] eqn:S1; [|discriminate]. injection S as <- ->.
  pose proof (see_prefix r l0 [c] a _ M1 S1) as Pr. cbn [held] in Pr. cbn [app].
  destruct (a ++ [z]) as [|x L]; [contradiction|]. destruct Pr as [y [r' [-> ->]]]. cbn [app].
  split; [cbn [com]; exact Ph|]. exists r'. rewrite Ec. reflexivity.
Qed.
(** A stretch of one lexeme. *)
Lemma stretch_one x us0 s X p : u_lex us0 = [x] -> plain_text x ->
  aligned p (unit_text us0 ++ s) (x :: X) -> one_lexeme x.
Proof.
  intros E P A. unfold unit_text in A. rewrite E in A. cbn [List.concat] in A. rewrite app_nil_r in A.
  destruct (step_lexeme p x s X P A) as [l [W _]]. exact (whole_one x l W).
Qed.
