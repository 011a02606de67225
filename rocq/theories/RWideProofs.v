(** A copied range reads the same where more line breaks are thrown away; the
    printed text as R reads it. *)
From Coq Require Import List NArith Bool Arith Lia String Permutation.
From Verif Require Import Text TextFacts LineEndingSpec SettingsModel SyntaxKind DirectiveModel FmtTree IrModel
  FmtSpec FmtModel FmtProofs FmtRunProofs FmtListProofs FmtTidyProofs FmtRootProofs LexSpec LexProofs LexRunProofs LexSealProofs
  LexTreeProofs RReadSpec FmtLineSpec FmtLineRunProofs FmtLineListProofs FmtLineProofs RTextSpec RReadProofs RNestProofs RRunProofs
  RTreeProofs.
Import ListNotations.
Local Open Scope N_scope.

(** * Lexemes with marks inside delimiters only *)

Definition opens (k : kind) : nat :=
  match k with L_PAREN | L_CURLY | L_BRACK => 1 | L_BRACK2 => 2 | _ => 0 end.
Definition closes (k : kind) : nat := match k with R_PAREN | R_CURLY | R_BRACK => 1 | _ => 0 end.
Fixpoint quiet (n : nat) (m : list (text * bool)) : Prop :=
  match m with
  | [] => True
  | (x, b) :: r =>
    (n = O -> b = false) /\ (kind_of x = ELSE_KW -> b = false) /\
    quiet (n + opens (kind_of x) - closes (kind_of x)) r
  end.

Lemma flat_opens k : flat_kind k = true -> opens k = O /\ closes k = O.
Proof. destruct k; try discriminate; split; reflexivity. Qed.
Lemma quiet_flat n x b r : opens (kind_of x) = O -> closes (kind_of x) = O -> (n = O -> b = false) ->
  (kind_of x = ELSE_KW -> b = false) -> quiet n r -> quiet n ((x, b) :: r).
Proof.
  intros O C N E Q. cbn [quiet]. rewrite O, C, Nat.add_0_r, Nat.sub_0_r. auto.
Qed.
Lemma quiet_string a z n b r : is_string a = true -> (n = O -> b = false) -> quiet n r ->
  quiet n ((a ++ z, b) :: r).
Proof.
  intros S N Q. pose proof (string_kind _ (is_string_app a z S)) as K.
  apply quiet_flat; rewrite ?K; auto; discriminate.
Qed.
Lemma marked_one t b : flat_kind (t_kind t) = true -> marked_lexemes [(t, b)] = [(t_text t, b)].
Proof. intros F. unfold marked_lexemes. cbn [fold_left]. rewrite (add_flat _ t b F). reflexivity. Qed.
Lemma marked_two a z b : t_kind a = STRING_OPEN -> t_kind z = STRING_CLOSE ->
  marked_lexemes [(a, b); (z, false)] = [(t_text a ++ t_text z, b)].
Proof.
  intros A Z. unfold marked_lexemes. cbn [fold_left].
  rewrite (add_open _ a b A), (add_rest _ z false (or_intror Z)). reflexivity.
Qed.
Lemma marked_three a c z b : t_kind a = STRING_OPEN -> t_kind c = STRING_CONTENT -> t_kind z = STRING_CLOSE ->
  marked_lexemes [(a, b); (c, false); (z, false)] = [((t_text a ++ t_text c) ++ t_text z, b)].
Proof.
  intros A C Z. unfold marked_lexemes. cbn [fold_left].
  rewrite (add_open _ a b A), (add_rest _ c false (or_introl C)), (add_rest _ z false (or_intror Z)). reflexivity.
Qed.
Lemma quiet_step k n x b r : kind_of x = k -> (n = O -> b = false) -> k <> ELSE_KW ->
  quiet (n + opens k - closes k) r -> quiet n ((x, b) :: r).
Proof. intros <- N E Q. cbn [quiet]. split; [exact N|]. split; [intros X; contradiction|exact Q]. Qed.
(** Around the lexemes of a pair of delimiters. *)
Lemma quiet_pair n o c b b' l rest :
  opener (t_kind o) = Some (t_text o) -> closer (t_kind c) = Some (t_kind o, t_text c) -> nested l ->
  (n = O -> b = false) ->
  (forall k r, quiet (S k) r -> quiet (S k) (marked_lexemes l ++ r)) ->
  quiet n rest -> quiet n (marked_lexemes ((o, b) :: l ++ [(c, b')]) ++ rest).
Proof.
  intros O C N B Q R. rewrite (pair_lexemes o c b b' l O C N). cbn [app]. rewrite <- app_assoc.
  destruct (closer_cases o c O C) as [E|[E|[E|E]]]; injection E as -> ->;
    cbn [t_text tk].
  - apply (quiet_step L_PAREN); [reflexivity|exact B|discriminate|]. cbn [opens closes].
    replace (n + 1 - 0)%nat with (S n) by lia. apply Q. change (marked_lexemes [(tk R_PAREN _, b')]) with [($")", b')].
    cbn [app]. apply (quiet_step R_PAREN); [reflexivity|discriminate|discriminate|]. cbn [opens closes].
    replace (S n + 0 - 1)%nat with n by lia. exact R.
  - apply (quiet_step L_CURLY); [reflexivity|exact B|discriminate|]. cbn [opens closes].
    replace (n + 1 - 0)%nat with (S n) by lia. apply Q. change (marked_lexemes [(tk R_CURLY _, b')]) with [($"}", b')].
    cbn [app]. apply (quiet_step R_CURLY); [reflexivity|discriminate|discriminate|]. cbn [opens closes].
    replace (S n + 0 - 1)%nat with n by lia. exact R.
  - apply (quiet_step L_BRACK); [reflexivity|exact B|discriminate|]. cbn [opens closes].
    replace (n + 1 - 0)%nat with (S n) by lia. apply Q. change (marked_lexemes [(tk R_BRACK _, b')]) with [($"]", b')].
    cbn [app]. apply (quiet_step R_BRACK); [reflexivity|discriminate|discriminate|]. cbn [opens closes].
    replace (S n + 0 - 1)%nat with n by lia. exact R.
  - apply (quiet_step L_BRACK2); [reflexivity|exact B|discriminate|]. cbn [opens closes].
    replace (n + 2 - 0)%nat with (S (S n)) by lia. apply Q.
    change (marked_lexemes [(tk R_BRACK2 _, b')]) with [($"]", b'); ($"]", false)].
    cbn [app]. apply (quiet_step R_BRACK); [reflexivity|discriminate|discriminate|]. cbn [opens closes].
    apply (quiet_step R_BRACK); [reflexivity|reflexivity|discriminate|]. cbn [opens closes].
    replace (S (S n) + 0 - 1 + 0 - 1)%nat with n by lia. exact R.
Qed.
Lemma quiet_nested l : nested l -> calm l -> forall n r, quiet (S n) r -> quiet (S n) (marked_lexemes l ++ r).
Proof.
  induction 1 as [|t b F K Nc|a z b A Z T|a c z b A C Z N T|o c b b' l O C H IH|x y X IX Y IY];
    intros Ca n r Q.
  - exact Q.
  - rewrite (marked_one t b F). cbn [app]. inversion Ca as [|? ? E _]; subst. cbn [fst snd] in E.
    destruct (flat_opens _ F) as [F1 F2]. apply quiet_flat; rewrite ?K; auto; discriminate.
  - rewrite (marked_two a z b A Z). cbn [app]. apply quiet_string; [apply T|discriminate|exact Q].
  - rewrite (marked_three a c z b A C Z). cbn [app]. rewrite <- app_assoc.
    apply quiet_string; [apply T|discriminate|exact Q].
  - apply quiet_pair; try assumption; [discriminate|]. intros k q. apply IH.
    inversion Ca as [|? ? _ Ca']; subst. apply Forall_app in Ca'. exact (proj1 Ca').
  - apply Forall_app in Ca. destruct Ca as [C1 C2]. rewrite (nested_app_lexemes x y X Y), <- app_assoc.
    apply IX, IY; assumption.
Qed.
Lemma quiet_inward l : inward l -> forall n r, quiet n r -> quiet n (marked_lexemes l ++ r).
Proof.
  induction 1 as [|t [F [K Nc]]|a z A Z T|a c z A C Z N T|o c l O C H Ca|x y X IX Y IY]; intros n r Q.
  - exact Q.
  - rewrite (marked_one t false F). cbn [app]. destruct (flat_opens _ F) as [F1 F2].
    apply quiet_flat; rewrite ?K; auto.
  - rewrite (marked_two a z false A Z). cbn [app]. apply quiet_string; [apply T|auto|exact Q].
  - rewrite (marked_three a c z false A C Z). cbn [app]. rewrite <- app_assoc.
    apply quiet_string; [apply T|auto|exact Q].
  - apply quiet_pair; try assumption; [auto|]. exact (quiet_nested l H Ca).
  - rewrite (nested_app_lexemes x y (inward_nested _ X) (inward_nested _ Y)), <- app_assoc. auto.
Qed.
Lemma calm_same l l' : Forall2 same_marked l l' -> calm l -> calm l'.
Proof.
  induction 1 as [|x y l l' [F S] H IH]; intros C; [constructor|]. inversion C as [|? ? C1 C2]; subst.
  constructor; [|exact (IH C2)]. rewrite (same_kind _ _ S), F. exact C1.
Qed.
Lemma inward_same l : inward l -> forall l', Forall2 same_marked l l' -> inward l'.
Proof.
  induction 1 as [|t T|a z A Z T|a c z A C Z N T|o c l O C H Ca|x y X IX Y IY]; intros l' S.
  - inversion S; subst. constructor.
  - inversion S as [|? [t' b1] ? ? [E1 E2] S1]; subst. inversion S1; subst. cbn [fst snd] in *. subst.
    rewrite (same_other t t' E2) by (destruct T as [F _]; intros Q; rewrite Q in F; discriminate).
    constructor; assumption.
  - inversion S as [|? [a' b1] ? ? [E1 E2] S1]; subst.
    inversion S1 as [|? [z' b2] ? ? [E3 E4] S2]; subst. inversion S2; subst. cbn [fst snd] in *. subst.
    rewrite (same_other a a' E2) by (rewrite A; discriminate).
    rewrite (same_other z z' E4) by (rewrite Z; discriminate). constructor; assumption.
  - inversion S as [|? [a' b1] ? ? [E1 E2] S1]; subst.
    inversion S1 as [|? [c' b3] ? ? [E5 E6] S3]; subst.
    inversion S3 as [|? [z' b2] ? ? [E3 E4] S2]; subst. inversion S2; subst. cbn [fst snd] in *. subst.
    rewrite (same_other a a' E2) by (rewrite A; discriminate).
    rewrite (same_other z z' E4) by (rewrite Z; discriminate).
    constructor; try assumption; [rewrite (same_kind c c' E6); exact C|].
    destruct E6 as [->|E6]; [exact N|]. unfold same_token in E6. rewrite C in E6.
    change (kind_eqb STRING_CONTENT STRING_CONTENT) with true in E6. destruct E6 as [_ ->].
    apply without_cr_some, N.
  - inversion S as [|? [o' b1] ? ? [E1 E2] S1]; subst. cbn [fst snd] in *. subst.
    apply Forall2_app_inv_l in S1. destruct S1 as [l1 [l2 [S1 [S2 ->]]]].
    inversion S2 as [|? [c' b2] ? ? [E3 E4] S3]; subst. inversion S3; subst. cbn [fst snd] in *. subst.
    assert (No : t_kind o <> STRING_CONTENT) by (intros Q; rewrite Q in O; discriminate).
    assert (Nc : t_kind c <> STRING_CONTENT) by (intros Q; rewrite Q in C; discriminate).
    rewrite (same_other o o' E2 No), (same_other c c' E4 Nc). constructor; try assumption.
    + exact (nested_same l H _ S1).
    + exact (calm_same _ _ S1 Ca).
  - apply Forall2_app_inv_l in S. destruct S as [l1 [l2 [S1 [S2 ->]]]]. constructor; auto.
Qed.

(** * Wider contexts *)

Record wide (c c' : context) (st st' : rstate) (X : list opened) : Prop := {
  wd_open : rs_open st = X ++ [OSeen c];
  wd_open' : rs_open st' = X ++ [OSeen c'];
  wd_fresh : rs_fresh st' = rs_fresh st;
  wd_header : rs_header st' = rs_header st;
  wd_in : X <> [] -> rs_eats st' = rs_eats st /\ rs_pause st' = rs_pause st;
  wd_out : X = [] -> rs_fresh st = false /\ rs_eats st' = rs_eats st || is_round c' /\
    rs_pause st' = if is_round c' then NoBreak else rs_pause st
}.

Lemma word_text x k w : kind_of x = k ->
  forallb (fun v => negb (kind_eqb (snd v) k) || text_eqb (fst v) w) words &&
  negb (existsb (kind_eqb k) [STRING_OPEN; SPECIAL; R_INTEGER_LITERAL; R_COMPLEX_LITERAL; R_DOUBLE_LITERAL;
    DOTDOTI; IDENT]) = true -> x = w.
Proof.
  intros K H. apply andb_true_iff in H. destruct H as [H G]. apply negb_true_iff in G.
  assert (Ng : forall k0, In k0 [STRING_OPEN; SPECIAL; R_INTEGER_LITERAL; R_COMPLEX_LITERAL; R_DOUBLE_LITERAL;
    DOTDOTI; IDENT] -> kind_of x <> k0).
  { intros k0 Ik E. rewrite <- K, E in G.
    assert (T : existsb (kind_eqb k0) [STRING_OPEN; SPECIAL; R_INTEGER_LITERAL; R_COMPLEX_LITERAL;
      R_DOUBLE_LITERAL; DOTDOTI; IDENT] = true).
    { apply existsb_exists. exists k0. split; [exact Ik|apply kind_eqb_refl]. }
    congruence. }
  unfold kind_of in K, Ng. destruct (find _ words) as [v|] eqn:F.
  - apply find_some in F. destruct F as [Iv E]. apply text_eqb_eq in E. subst x.
    rewrite forallb_forall in H. specialize (H v Iv). rewrite <- K, kind_eqb_refl in H. cbn in H.
    apply text_eqb_eq, H.
  - exfalso. destruct (is_string x); [apply (Ng STRING_OPEN); [left|]; reflexivity|].
    destruct (match x with c :: _ => c =? PERCENT | [] => false end);
      [apply (Ng SPECIAL); [right; left|]; reflexivity|].
    destruct (numeric x).
    + unfold number_kind in Ng. cbv zeta in Ng. destruct (last x 0 =? 76);
        [apply (Ng R_INTEGER_LITERAL); [do 2 right; left|]; reflexivity|].
      destruct (last x 0 =? 105); [apply (Ng R_COMPLEX_LITERAL); [do 3 right; left|]; reflexivity|].
      apply (Ng R_DOUBLE_LITERAL); [do 4 right; left|]; reflexivity.
    + destruct (dot_dot x); [apply (Ng DOTDOTI); [do 5 right; left|]; reflexivity|].
      apply (Ng IDENT); [do 6 right; left|]; reflexivity.
Qed.
Lemma square_length x : role_of (kind_of x) = RoOpenSquare -> List.length x = opens (kind_of x).
Proof.
  intros R. destruct (kind_of x) eqn:K; try discriminate R.
  - rewrite (word_text x _ $"[" K eq_refl). reflexivity.
  - rewrite (word_text x _ $"[[" K eq_refl). reflexivity.
Qed.
Lemma no_close2 x : kind_of x <> R_BRACK2.
Proof.
  intros K. pose proof (word_text x _ $"]]" K eq_refl) as ->. discriminate K.
Qed.

Lemma wide_open c c' st st' X x s : rs_open st = X ++ [OSeen c] -> rs_open st' = X ++ [OSeen c'] ->
  rs_header st' = rs_header st -> r_open st x = Some s ->
  exists X1, s = X1 ++ [OSeen c] /\ r_open st' x = Some (X1 ++ [OSeen c']) /\
    List.length X1 = (List.length X + opens (kind_of x) - closes (kind_of x))%nat.
Proof.
  intros A B H O. unfold r_open in *. rewrite A in O. rewrite B, H.
  pose proof (square_length x) as Sq. pose proof (no_close2 x) as N2.
  destruct (kind_of x) eqn:K; cbn [role_of] in *; cbn [opens closes];
    try (injection O as <-; exists X; split; [reflexivity|split; [reflexivity|lia]]).
  - injection O as <-. destruct (rs_header st); [exists (OHead :: X)|exists (ORound :: X)];
      (split; [reflexivity|split; [reflexivity|cbn [List.length]; lia]]).
  - destruct X as [|[] X]; try discriminate O; cbn [app] in *; injection O as <-; exists X;
      (split; [reflexivity|split; [reflexivity|cbn [List.length]; lia]]).
  - injection O as <-. exists (map (fun _ => OSquare) x ++ X). rewrite <- !app_assoc.
    split; [reflexivity|split; [reflexivity|]]. rewrite app_length, map_length, (Sq eq_refl). cbn [opens]. lia.
  - destruct X as [|[] X]; try discriminate O; cbn [app] in *; injection O as <-; exists X;
      (split; [reflexivity|split; [reflexivity|cbn [List.length]; lia]]).
  - injection O as <-. exists (map (fun _ => OSquare) x ++ X). rewrite <- !app_assoc.
    split; [reflexivity|split; [reflexivity|]]. rewrite app_length, map_length, (Sq eq_refl). cbn [opens]. lia.
  - destruct (N2 eq_refl).
  - injection O as <-. exists (OCurly :: X). split; [reflexivity|split; [reflexivity|cbn [List.length]; lia]].
  - destruct X as [|[] X]; try discriminate O; cbn [app] in *; injection O as <-; exists X;
      (split; [reflexivity|split; [reflexivity|cbn [List.length]; lia]]).
Qed.

Lemma around_in X c c' : X <> [] -> around (X ++ [OSeen c']) = around (X ++ [OSeen c]).
Proof. destruct X as [|[] X]; [contradiction|reflexivity..]. Qed.
Lemma wider_is_round c c' : wider c c' -> is_round c || is_round c' = is_round c'.
Proof. destruct c, c'; cbn; tauto. Qed.

Lemma wide_mark c c' st st' X x : wider c c' -> wide c c' st st' X ->
  (X = [] -> r_mark st x = false) -> (kind_of x = ELSE_KW -> r_mark st x = false) ->
  r_mark st' x = r_mark st x.
Proof.
  intros Wd [A B _ _ In Ou] M E. unfold r_mark in *. destruct X as [|y X].
  - specialize (M eq_refl). rewrite M. destruct (Ou eq_refl) as [_ [_ P]]. rewrite P, B in *. rewrite A in M, E.
    cbn [app around] in *. destruct (is_round c') eqn:R; [destruct (kind_of x); reflexivity|].
    destruct (kind_of x); try exact M; try reflexivity.
    destruct (rs_pause st); try exact M. destruct c, c'; try discriminate; try reflexivity; destruct Wd.
  - destruct (In ltac:(discriminate)) as [_ P]. rewrite P, A, B.
    rewrite (around_in (y :: X) c c' ltac:(discriminate)). reflexivity.
Qed.

Lemma wide_lexeme c c' st st' X x b st1 : wider c c' -> wide c c' st st' X ->
  (X = [] -> b = false) -> (kind_of x = ELSE_KW -> b = false) -> r_lexeme st x = Some (b, st1) ->
  exists st1' X1, r_lexeme st' x = Some (b, st1') /\ wide c c' st1 st1' X1 /\
    List.length X1 = (List.length X + opens (kind_of x) - closes (kind_of x))%nat.
Proof.
  intros Wd W M E R. unfold r_lexeme in R. destruct (r_open st x) as [s|] eqn:O; [|discriminate].
  injection R as <- <-. pose proof (wide_mark _ _ _ _ _ x Wd W M E) as Mk.
  destruct W as [A B F H In Ou].
  destruct (wide_open _ _ _ _ _ _ _ A B H O) as [X1 [-> [O' L]]].
  unfold r_lexeme. rewrite O', Mk. eexists _, X1. split; [reflexivity|]. split; [|exact L].
  assert (G : goes_on (role_of (kind_of x)) (rs_open st') = goes_on (role_of (kind_of x)) (rs_open st)).
  { rewrite A, B. destruct X; [destruct (role_of (kind_of x)); reflexivity|reflexivity]. }
  rewrite G. split; cbn [rs_open rs_eats rs_fresh rs_pause rs_header]; try reflexivity.
  - intros N. rewrite (around_in X1 c c' N). split; reflexivity.
  - intros ->. cbn [app around List.length] in *. split.
    + destruct (kind_of x); cbn [role_of opens closes] in *; try reflexivity; lia.
    + split; [|destruct (is_round c'); reflexivity]. rewrite <- orb_assoc, (wider_is_round _ _ Wd). reflexivity.
Qed.

(** After a semicolon outside delimiters an expression must end. *)
Lemma semicolon_stays c is : forall st m stF, rs_open st = [OSeen c] -> rs_fresh st = false ->
  rs_pause st = Semicolon -> r_items st is = Some (m, stF) -> quiet 0 m -> rs_pause stF = Semicolon.
Proof.
  induction is as [|i is IH]; intros st m stF O Fr P R Q.
  - injection R as _ <-. exact P.
  - cbn [r_items] in R. destruct (r_item st i) as [[a st1]|] eqn:Ri; [|discriminate].
    destruct (r_items st1 is) as [[b st2]|] eqn:R2; [|discriminate]. injection R as <- <-.
    destruct i as [x| |]; cbn [r_item] in Ri.
    + destruct (LexSpec.is_comment x).
      { injection Ri as <- <-. exact (IH _ _ _ O Fr P R2 Q). }
      destruct (r_lexeme st x) as [[k st3]|] eqn:L; [|discriminate]. injection Ri as <- <-.
      exfalso. destruct Q as [Q _]. specialize (Q eq_refl). subst k. unfold r_lexeme in L.
      destruct (r_open st x) as [s|] eqn:Os; [|discriminate]. injection L as Mk _.
      unfold r_mark in Mk. unfold r_open in Os. rewrite P in Mk. rewrite O in Os.
      destruct (kind_of x); try discriminate Mk. discriminate Os.
    + injection Ri as <- <-. unfold r_break in R2. rewrite P in R2.
      destruct (rs_eats st); exact (IH _ _ _ O Fr P R2 Q).
    + unfold r_semi in Ri. rewrite Fr in Ri. destruct (rs_eats st); [discriminate|].
      injection Ri as <- <-. exact (IH (paused Semicolon st) _ _ O Fr eq_refl R2 Q).
Qed.

Lemma wide_outer c c' st st' : rs_open st = [OSeen c] -> rs_open st' = [OSeen c'] ->
  rs_fresh st' = rs_fresh st -> rs_header st' = rs_header st -> rs_fresh st = false ->
  rs_eats st' = rs_eats st || is_round c' ->
  rs_pause st' = (if is_round c' then NoBreak else rs_pause st) -> wide c c' st st' [].
Proof. intros A B F H O1 O2 O3. split; auto. contradiction. Qed.
Lemma wide_inner c c' st st' y X : rs_open st = (y :: X) ++ [OSeen c] -> rs_open st' = (y :: X) ++ [OSeen c'] ->
  rs_fresh st' = rs_fresh st -> rs_header st' = rs_header st -> rs_eats st' = rs_eats st ->
  rs_pause st' = rs_pause st -> wide c c' st st' (y :: X).
Proof. intros A B F H O1 O2. split; auto. discriminate. Qed.
Lemma wide_run c c' is : wider c c' -> forall st st' X m stF, wide c c' st st' X ->
  r_items st is = Some (m, stF) -> quiet (List.length X) m -> rs_pause stF = NoBreak ->
  exists stF' X', r_items st' is = Some (m, stF') /\ wide c c' stF stF' X'.
Proof.
  intros Wd. induction is as [|i is IH]; intros st st' X m stF W R Q Pn.
  - injection R as <- <-. exists st', X. split; [reflexivity|exact W].
  - cbn [r_items] in R. destruct (r_item st i) as [[a st1]|] eqn:Ri; [|discriminate].
    destruct (r_items st1 is) as [[b st2]|] eqn:R2; [|discriminate]. injection R as <- <-.
    assert (Go : forall st1' X1, r_item st' i = Some (a, st1') -> wide c c' st1 st1' X1 ->
              quiet (List.length X1) b ->
              exists stF' X', r_items st' (i :: is) = Some (a ++ b, stF') /\ wide c c' st2 stF' X').
    { intros st1' X1 E1 W1 Q1. destruct (IH _ _ _ _ _ W1 R2 Q1 Pn) as [sF [X' [G1 G2]]].
      exists sF, X'. cbn [r_items]. rewrite E1, G1. split; [reflexivity|exact G2]. }
    destruct i as [x| |]; cbn [r_item] in Ri.
    + destruct (LexSpec.is_comment x) eqn:Cm.
      { injection Ri as <- <-. apply (Go st' X); [cbn [r_item]; rewrite Cm; reflexivity|exact W|exact Q]. }
      destruct (r_lexeme st x) as [[k st3]|] eqn:L; [|discriminate]. injection Ri as <- <-.
      destruct Q as [Q1 [Q2 Q3]].
      destruct (wide_lexeme _ _ _ _ _ _ _ _ Wd W (fun E => Q1 (f_equal (@List.length opened) E)) Q2 L)
        as [s3 [X1 [L1 [L2 L3]]]].
      apply (Go s3 X1); [cbn [r_item]; rewrite Cm, L1; reflexivity|exact L2|rewrite L3; exact Q3].
    + injection Ri as <- <-. apply (Go (r_break st') X); [reflexivity| |exact Q].
      destruct W as [A B F H In Ou]. unfold r_break. destruct X as [|y X].
      * destruct (Ou eq_refl) as [O1 [O2 O3]]. rewrite O2, O3. destruct (rs_eats st) eqn:Es; cbn [orb].
        { apply wide_outer; auto. rewrite Es. exact O2. }
        destruct (is_round c') eqn:Rc;
          [|destruct (rs_pause st) eqn:Ps; apply wide_outer;
            cbn [paused rs_open rs_fresh rs_header rs_eats rs_pause]; rewrite ?Rc, ?Es; auto; congruence].
        destruct (rs_pause st) eqn:Ps; apply wide_outer;
          cbn [paused rs_open rs_fresh rs_header rs_eats rs_pause]; rewrite ?Rc, ?Es; auto; congruence.
      * destruct (In ltac:(discriminate)) as [I1 I2]. rewrite I1, I2.
        destruct (rs_eats st) eqn:Es; [apply wide_inner; auto; congruence|].
        destruct (rs_pause st) eqn:Ps; apply wide_inner;
          cbn [paused rs_open rs_fresh rs_header rs_eats rs_pause]; auto; congruence.
    + destruct (r_semi st) as [s1|] eqn:Sm; [|discriminate]. injection Ri as <- <-. unfold r_semi in Sm.
      pose proof W as [A B F H In Ou]. destruct X as [|y X].
      * destruct (Ou eq_refl) as [O1 [O2 O3]]. rewrite O1 in Sm. destruct (rs_eats st) eqn:Es; [discriminate|].
        injection Sm as <-. destruct (is_round c') eqn:Rc.
        { pose proof (semicolon_stays c is (paused Semicolon st) b st2 A O1 eq_refl R2 Q) as Z. congruence. }
        apply (Go (paused Semicolon st') []); [|apply wide_outer;
          cbn [paused rs_open rs_fresh rs_header rs_eats rs_pause]; rewrite ?Rc, ?Es; auto|exact Q].
        cbn [r_item]. unfold r_semi. rewrite F, O1, O2. reflexivity.
      * destruct (In ltac:(discriminate)) as [I1 I2]. destruct (rs_fresh st) eqn:Fr.
        { injection Sm as <-. apply (Go st' (y :: X)); [|exact W|exact Q]. cbn [r_item]. unfold r_semi.
          rewrite F. reflexivity. }
        destruct (rs_eats st) eqn:Es; [discriminate|]. injection Sm as <-.
        apply (Go (paused Semicolon st') (y :: X)); [|apply wide_inner;
          cbn [paused rs_open rs_fresh rs_header rs_eats rs_pause]; auto; congruence|exact Q].
        cbn [r_item]. unfold r_semi. rewrite F, I1. reflexivity.
Qed.

Lemma fitting_wider c c' e : wider c c' -> inward (lines e) -> fitting c e -> fitting c' e.
Proof.
  intros Wd Iw [Em [is [lv [st [I1 [I2 [I3 [I4 [I5 [I6 [I7 I8]]]]]]]]]]]. split.
  { intros E. destruct (Em E) as [-> Sr]. split; [exact (wider_round _ Wd)|exact Sr]. }
  assert (Q : quiet 0 (marked_lexemes lv)).
  { rewrite <- (app_nil_r (marked_lexemes lv)). apply (quiet_inward lv (inward_same _ Iw lv I4)). exact I. }
  assert (W : wide c c' (r_inside c) (r_inside c') []).
  { split; try reflexivity; [contradiction|]. intros _. cbn [r_inside rs_fresh rs_eats rs_pause].
    rewrite (wider_is_round _ _ Wd). split; [reflexivity|]. split; [reflexivity|]. destruct (is_round c'); reflexivity. }
  destruct (wide_run c c' is Wd _ _ _ _ _ W I3 Q I7) as [st' [X' [R [A B F H In Ou]]]].
  rewrite I5 in A. destruct X' as [|y X']; [|destruct X'; discriminate A].
  destruct (Ou eq_refl) as [O1 [O2 O3]].
  exists is, lv, st'. split; [exact I1|]. split; [exact I2|]. split; [exact R|]. split; [exact I4|].
  split; [exact B|]. split; [rewrite O2, I6; exact (wider_is_round _ _ Wd)|].
  split; [rewrite O3, I7; destruct (is_round c'); reflexivity|congruence].
Qed.

(** * The printed text *)

Lemma tame_and (P : context -> context -> expr -> Prop) (Q : expr -> Prop) e : forall c0 c,
  tame P c0 c e -> everywhere Q e -> tame (fun c0 c e => P c0 c e /\ Q e) c0 c e.
Proof.
  set (PQ := fun c0 c e => P c0 c e /\ Q e).
  assert (All : forall c0 c l,
    Forall (fun e => forall c0 c, tame P c0 c e -> everywhere Q e -> tame PQ c0 c e) l ->
    all_of (tame P c0 c) l -> all_of (everywhere Q) l -> all_of (tame PQ c0 c) l).
  { intros c0 c. induction 1 as [|x l H F IH]; intros A B; [exact I|].
    destruct A as [A1 A2], B as [B1 B2]. split; [eauto|auto]. }
  assert (Opt : forall c0 c x,
    Popt (fun e => forall c0 c, tame P c0 c e -> everywhere Q e -> tame PQ c0 c e) x ->
    opt_all (tame P c0 c) x -> opt_all (everywhere Q) x -> opt_all (tame PQ c0 c) x).
  { intros c0 c [x|] H A B; [exact (H c0 c A B)|exact I]. }
  induction e using expr_ind'; intros c0 c1 [[D T0] T] [Q0 Q1];
    (split; [split; [exact D|split; assumption]|]); cbn [tame everywhere] in *;
    repeat match goal with H : _ /\ _ |- _ => destruct H end;
    repeat match goal with |- _ /\ _ => split end; eauto.
Qed.
Lemma everywhere_sound e : shaped e -> everywhere node_read e -> everywhere (fun x => inward (lines x)) e.
Proof.
  assert (All : forall s l,
    Forall (fun e => shaped e -> everywhere node_read e -> everywhere (fun x => inward (lines x)) e) l ->
    all_of (fun x => sort_of x = s /\ shaped x) l -> all_of (everywhere node_read) l ->
    all_of (everywhere (fun x => inward (lines x))) l).
  { intros s. induction 1 as [|x l H F IH]; intros A B; [exact I|].
    destruct A as [[_ A1] A2], B as [B1 B2]. split; auto. }
  assert (Opt : forall s x,
    Popt (fun e => shaped e -> everywhere node_read e -> everywhere (fun x => inward (lines x)) e) x ->
    opt_all (fun x => sort_of x = s /\ shaped x) x -> opt_all (everywhere node_read) x ->
    opt_all (everywhere (fun x => inward (lines x))) x).
  { intros s [x|] H A B; [exact (H (proj2 A) B)|exact I]. }
  induction e using expr_ind'; intros S R; (split; [exact (proj1 (tree_sound _ S R))|]);
    destruct R as [_ R]; cbn [shaped everywhere] in *;
    repeat match goal with H : _ /\ _ |- _ => destruct H end;
    repeat match goal with |- _ /\ _ => split end; eauto.
Qed.

Lemma nested_no_bom l : nested l -> Forall (fun x => t_kind (fst x) <> UNICODE_BOM) l.
Proof.
  induction 1 as [|t b F K Nc|a z b A Z T|a c z b A C Z N T|o c b b' l O C H IH|x y X IX Y IY].
  - constructor.
  - constructor; [|constructor]. cbn [fst]. intros Q. rewrite Q in F. discriminate.
  - repeat constructor; cbn [fst]; congruence.
  - repeat constructor; cbn [fst]; congruence.
  - constructor; [cbn [fst]; intros Q; rewrite Q in O; discriminate|]. apply Forall_app. split; [exact IH|].
    constructor; [cbn [fst]; intros Q; rewrite Q in C; discriminate|constructor].
  - apply Forall_app. auto.
Qed.
Lemma bom_pieces ps : Forall (fun t => t_kind t = UNICODE_BOM -> t_text t = [65279]) (ptokens ps) ->
  Forall bom_ok ps.
Proof.
  induction ps as [|p ps IH]; intros F; [constructor|]. unfold ptokens in F. cbn [flat_map] in F.
  apply Forall_app in F. destruct F as [F1 F2]. constructor; [|exact (IH F2)].
  destruct p as [[t|c|k|e|]| |]; try exact I. inversion F1; subst. assumption.
Qed.

Definition fits_copied (o : format_options) (c0 c : context) (e : expr) : Prop := copied o e -> fitting c e.

Theorem text_reads o pc r out txt : cell_printer pc -> root_shaped r -> root_placed o r -> lexical r ->
  classed r -> root_tame_with (fits_copied o) r -> prints (root_doc o pc r) out -> rendered out txt ->
  exists es' l, Forall2 (tidy o (p_stmt true)) (r_exprs r) es' /\
    Forall2 same_marked (program es') l /\ tokens_of txt = Some l.
Proof.
  intros Cp Sh Pl Lx Cl Tm Pr R.
  assert (Nr : all_of (everywhere node_read) (r_exprs r)).
  { destruct Lx as [_ [_ Lx]], Tm as [_ Tm]. unfold classed in Cl. clear - Lx Cl Tm.
    induction (r_exprs r) as [|x l IH]; [exact I|]. destruct Lx, Cl, Tm. split; [|auto].
    eapply tree_read; eassumption. }
  set (P := fun c0 c e => fits_copied o c0 c e /\ inward (lines e)).
  assert (Tp : root_tame_with P r).
  { destruct Tm as [Tb Tm]. split; [exact Tb|]. unfold root_shaped in Sh. clear - Tm Sh Nr.
    induction (r_exprs r) as [|x l IH]; [exact I|]. destruct Sh as [[_ S1] S2], Tm, Nr. split; [|auto].
    apply tame_and; [assumption|]. apply everywhere_sound; assumption. }
  assert (Pw : forall c0 c c' e, wider c c' -> P c0 c e -> P c0 c' e).
  { intros c0 c c' e Wd [F Iw]. split; [|exact Iw]. intros Cc. exact (fitting_wider c c' e Wd Iw (F Cc)). }
  destruct (root_copies o pc Cp P r out Pw Sh Tp Pr) as [Co [es' [Ht Re]]].
  destruct (tidied_sound o _ _ Ht Sh Nr) as [Ne Ca].
  destruct (root_shows o pc Cp r out Sh Pr) as [bom' [es2 [Hb [Ht2 [Hp Hc]]]]].
  destruct (Hc Pl) as [Pm Cc]. clear Hc.
  destruct (tidied_sound o _ _ Ht2 Sh Nr) as [Ne2 _].
  assert (Bo : Forall bom_ok out).
  { apply bom_pieces. rewrite Hp. apply Forall_app. split.
    - destruct Lx as [B _]. destruct (r_bom r) as [t|]; inversion Hb as [|? y ? ? H1 H2]; subst; [|constructor].
      inversion H2; subst. constructor; [|constructor]. intros _. cbn [opt_all] in B. destruct B as [K T].
      unfold same_token in H1. rewrite K in H1. change (kind_eqb UNICODE_BOM STRING_CONTENT) with false in H1.
      cbn iota in H1. subst y. exact T.
    - rewrite <- program_tokens. apply Forall_map.
      eapply Forall_impl; [|exact (nested_no_bom _ Ne2)]. cbn. intros a H Q. contradiction. }
  assert (Cm : Forall commented out).
  { apply out_commented. apply (Permutation_Forall (Permutation_sym Pm)).
    destruct Lx as [_ [C A]]. apply wrap_ok; [exact C|]. apply Forall_concat, Forall_map, Forall_forall.
    intros x I. exact (ecomments_ok _ (all_of_In _ _ _ A I)). }
  destruct Pr as [os [La ->]]. pose proof (root_seal o pc Cp r Sh Lx _ _ (lay_glay _ _ _ La)) as Se.
  destruct (Se Between I I) as [L [p' [F [Le [E Pt]]]]]. cbn [held app] in E.
  assert (Ln : lets no_char p') by exact (lets_no _ _ Le).
  destruct (run_feeds os L p' F Ln) as [L2 [q [F2 [E2 Lq]]]].
  unfold read in Re. destruct (scan reader_start (run os)) as [l stF] eqn:Sc. cbn [fst] in Re. subst l.
  destruct (@rendered_tokens (Cr o P)
    (fun c e (H : may_copy c e) => match H with
      conj Cc (ex_intro _ _ (conj Ft Iw)) => conj (Ft Cc) (inward_nested _ Iw) end)
    (run os) txt L2 q (program es') stF R F2 Lq Cc Cm Bo Co Sc Ne Ca) as [l [G1 G2]].
  exists es', l. auto.
Qed.
