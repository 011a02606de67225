(** Reading a text whose line endings were normalised. *)
From Coq Require Import List NArith Bool Arith Lia String.
From Verif Require Import Text TextFacts LineEndingSpec LineEndingProofs SettingsModel SyntaxKind FmtTree IrModel FmtModel FmtSpec FmtFactProofs
  LexSpec LexProofs LexRunProofs LexSealProofs LexTreeProofs RReadSpec FmtLineSpec FmtLineProofs RTextSpec RNestProofs RRunProofs RTreeProofs
  RSliceProofs RTailProofs RWideProofs FmtCellProofs FmtProofs SourceSpec SourceNodeProofs.
Import ListNotations.
Local Open Scope N_scope.

(** * Lexemes *)

Inductive like_item : item -> item -> Prop :=
| like_lex a b : like_lexeme a b -> like_item (ILex a) (ILex b)
| like_break : like_item IBreak IBreak
| like_semi : like_item ISemi ISemi.

Lemma like_map a b : Forall2 like_lexeme a b -> Forall2 like_item (map ILex a) (map ILex b).
Proof. induction 1; constructor; [constructor; assumption|assumption]. Qed.
Lemma like_same l : (forall x, ~ In (ILex x) l) -> Forall2 like_item l l.
Proof.
  induction l as [|i l IH]; intros N; constructor; [|apply IH; intros x H; apply (N x); right; exact H].
  destruct i; [exfalso; apply (N x); left; reflexivity|constructor|constructor].
Qed.
Lemma break_same c p : Forall2 like_item (break_of c p) (break_of c (norm_place p)).
Proof.
  assert (E : break_of c (norm_place p) = break_of c p) by (destruct p; reflexivity). rewrite E. apply like_same.
  intros x. unfold break_of. destruct p; [|intros H; exact H].
  destruct (c =? LF); [|destruct (c =? SEMI)]; intros H; [destruct H as [H|[]]; discriminate H..|exact H].
Qed.
Lemma items_norm : forall n s p is p', (List.length s <= n)%nat ->
  (place_ends_cr p = true -> match s with c :: _ => c <> LF | [] => True end) ->
  sane_place p -> marked p -> items_from p s = Some (is, p') ->
  exists is', items_from (norm_place p) (drop_cr s) = Some (is', norm_place p') /\ Forall2 like_item is is'.
Proof.
  induction n as [|n IH]; intros s p is p' Len Cr Sa Ma H.
  - destruct s; [|cbn in Len; lia]. cbn in H. injection H as <- <-. exists []. split; [reflexivity|constructor].
  - destruct s as [|c s].
    { cbn in H. injection H as <- <-. exists []. split; [reflexivity|constructor]. }
    cbn [items_from] in H. destruct (LexSpec.see p c) as [[x p1]|] eqn:S; [|discriminate].
    destruct (items_from p1 s) as [[y p2]|] eqn:R; [|discriminate]. injection H as <- <-.
    rewrite drop_cr_cons. destruct (crlf_head c s) eqn:E.
    + apply crlf_head_true in E. destruct E as [r [-> ->]]. rewrite drop_cr_LF.
      cbn [items_from] in R. destruct (LexSpec.see p1 LF) as [[z q]|] eqn:S2; [|discriminate].
      destruct (items_from q r) as [[w q']|] eqn:R2; [|discriminate]. injection R as <- <-.
      destruct (see_crlf _ _ _ _ _ Sa Ma S S2) as [a' [E1 [E2 E3]]].
      destruct (IH r q w q') as [b' [F1 F2]].
      * cbn [List.length] in Len. lia.
      * rewrite E3. discriminate.
      * exact (see_sane _ _ _ _ (see_sane _ _ _ _ Sa S) S2).
      * exact (see_marked _ _ _ _ (see_marked _ _ _ _ Ma S) S2).
      * exact R2.
      * exists (map ILex a' ++ break_of LF (norm_place q) ++ b'). cbn [items_from]. rewrite E1, F1. split; [reflexivity|].
        assert (Bc : break_of CR p1 = []) by (destruct p1; reflexivity). rewrite Bc. cbn [app].
        rewrite app_assoc, <- map_app. apply Forall2_app; [exact (like_map _ _ E2)|].
        apply Forall2_app; [apply break_same|exact F2].
    + destruct (see_norm p c x p1 Cr S) as [a' [E1 [E2 E3]]].
      destruct (IH s p1 y p2) as [b' [F1 F2]].
      * cbn [List.length] in Len. lia.
      * intros K. specialize (E3 K). subst c. destruct s as [|d s]; [exact Logic.I|].
        intros ->. discriminate E.
      * exact (see_sane _ _ _ _ Sa S).
      * exact (see_marked _ _ _ _ Ma S).
      * exact R.
      * exists (map ILex a' ++ break_of c (norm_place p1) ++ b'). cbn [items_from]. rewrite E1, F1. split; [reflexivity|].
        apply Forall2_app; [exact (like_map _ _ E2)|]. apply Forall2_app; [apply break_same|exact F2].
Qed.
Lemma items_dropped s is : RReadSpec.items s = Some is ->
  exists is', RReadSpec.items (drop_cr s) = Some is' /\ Forall2 like_item is is'.
Proof.
  unfold RReadSpec.items. destruct (items_from Between s) as [[a p]|] eqn:E; [|discriminate].
  destruct (items_norm _ s Between a p (le_n _) ltac:(discriminate) Logic.I Logic.I E) as (a' & E' & F). cbn [norm_place] in E'. rewrite E'. clear E'.
  destruct p as [|l t]; cbn [the_end norm_place].
  - intros H. injection H as <-. exists (a' ++ []). split; [reflexivity|]. rewrite app_nil_r. cbn [map]. rewrite app_nil_r. exact F.
  - destruct (complete_lexeme l); [|discriminate]. intros H. injection H as <-. eexists. split; [reflexivity|].
    apply Forall2_app; [exact F|]. cbn [map]. constructor; [constructor; apply like_drop|constructor].
Qed.

(** * Kinds *)

Lemma words_no_lf w : In w words -> ~ In LF (fst w) /\ drop_cr (fst w) = fst w.
Proof.
  intros I. assert (H : forallb (fun w => negb (existsb (N.eqb LF) (fst w)) && text_eqb (drop_cr (fst w)) (fst w)) words = true) by reflexivity.
  rewrite forallb_forall in H. specialize (H w I). apply andb_true_iff in H as [A B].
  split; [|apply text_eqb_eq, B]. intros J. apply negb_true_iff in A.
  pose proof (eq_trans (eq_sym A) (proj2 (existsb_exists (N.eqb LF) (fst w)) (ex_intro _ LF (conj J (N.eqb_refl LF))))) as Q.
  discriminate Q.
Qed.
Lemma drop_lf x : drop_cr x = x \/ In LF (drop_cr x).
Proof.
  destruct (in_dec N.eq_dec LF x) as [I|N]; [|left; apply drop_cr_no_lf; exact N].
  right. rewrite <- without_drop. apply (proj2 (lf_without_cr x)). exact I.
Qed.
Definition percent_first (x : text) : bool := match x with c :: _ => c =? PERCENT | [] => false end.
Lemma percent_drop x : percent_first (drop_cr x) = percent_first x.
Proof.
  destruct x as [|c x]; [reflexivity|]. rewrite drop_cr_cons. destruct (crlf_head c x) eqn:E; [|reflexivity].
  apply crlf_head_true in E as (r & -> & ->). rewrite drop_cr_LF. reflexivity.
Qed.
Lemma string_drop x : is_string (drop_cr x) = is_string x.
Proof.
  destruct x as [|c x]; [reflexivity|]. rewrite drop_cr_cons. destruct (crlf_head c x) eqn:E.
  - apply crlf_head_true in E as (r & -> & ->). rewrite drop_cr_LF. reflexivity.
  - cbn [is_string]. destruct (quote c); [reflexivity|]. cbn [orb]. destruct ((c =? 114) || (c =? 82)); [|reflexivity]. cbn [andb].
    destruct x as [|d x]; [reflexivity|]. rewrite drop_cr_cons. destruct (crlf_head d x) eqn:E2; [|reflexivity].
    apply crlf_head_true in E2 as (r & -> & ->). rewrite drop_cr_LF. reflexivity.
Qed.
Definition outside_words (x : text) : Prop :=
  role_of (kind_of x) = (if negb (is_string x) && percent_first x then RoContinues else RoPlain) /\
  kind_of x <> R_CURLY /\ kind_of x <> ELSE_KW.
Lemma kind_outside x : find (fun w => text_eqb (fst w) x) words = None -> outside_words x.
Proof.
  intros F. unfold outside_words, kind_of. rewrite F. fold (percent_first x).
  destruct (is_string x); [repeat split; discriminate|]. destruct (percent_first x); [repeat split; discriminate|].
  destruct (numeric x).
  - unfold number_kind. destruct (_ =? 76); [|destruct (_ =? 105)]; repeat split; discriminate.
  - destruct (dot_dot x); repeat split; discriminate.
Qed.
Lemma kind_drop x : drop_cr x = x \/ outside_words x /\ outside_words (drop_cr x).
Proof.
  destruct (drop_lf x) as [E|L]; [left; exact E|].
  destruct (find (fun w => text_eqb (fst w) x) words) as [w|] eqn:F.
  - left. apply find_some in F as [I F]. apply text_eqb_eq in F. rewrite <- F. exact (proj2 (words_no_lf w I)).
  - right. split; [exact (kind_outside x F)|]. apply kind_outside.
    destruct (find (fun w => text_eqb (fst w) (drop_cr x)) words) as [w|] eqn:G; [|reflexivity].
    exfalso. apply find_some in G as [I G]. apply text_eqb_eq in G. rewrite <- G in L. exact (proj1 (words_no_lf w I) L).
Qed.
Lemma lexeme_drop st x : r_lexeme st (drop_cr x) = r_lexeme st x.
Proof.
  destruct (kind_drop x) as [->|[[A [A1 A2]] [B [B1 B2]]]]; [reflexivity|].
  rewrite string_drop, percent_drop in B. unfold r_lexeme, r_open, r_mark. rewrite A, B.
  assert (M : forall k, k <> R_CURLY -> k <> ELSE_KW ->
    match k, rs_pause st with
    | R_CURLY, _ | _, NoBreak => false
    | ELSE_KW, LineBreak => match RReadSpec.around (rs_open st) with InFile => true | _ => false end
    | _, _ => true end = match rs_pause st with NoBreak => false | _ => true end).
  { intros k K1 K2. destruct k; try reflexivity; try contradiction; destruct (rs_pause st); reflexivity. }
  rewrite (M _ A1 A2), (M _ B1 B2). destruct (negb (is_string x) && percent_first x); reflexivity.
Qed.

Definition dropped (x : text * bool) : text * bool := (drop_cr (fst x), snd x).
Lemma items_read is is' : Forall2 like_item is is' -> forall st m st', r_items st is = Some (m, st') ->
  r_items st is' = Some (map dropped m, st').
Proof.
  induction 1 as [|i j is is' H F IH]; intros st m st' R; cbn [r_items] in *; [injection R as <- <-; reflexivity|].
  destruct (r_item st i) as [[a s1]|] eqn:E; [|discriminate]. destruct (r_items s1 is) as [[b s2]|] eqn:E2; [|discriminate].
  injection R as <- <-. specialize (IH _ _ _ E2).
  assert (K : r_item st j = Some (map dropped a, s1)).
  { destruct H as [x y L| |]; cbn [r_item] in *.
    - unfold like_lexeme in L. destruct (LexSpec.is_comment x) eqn:C; [rewrite L; injection E as <- <-; reflexivity|].
      subst y. rewrite is_comment_same, C, lexeme_drop. destruct (r_lexeme st x) as [[b' s']|]; [|discriminate].
      injection E as <- <-. reflexivity.
    - injection E as <- <-. reflexivity.
    - destruct (r_semi st); [|discriminate]. injection E as <- <-. reflexivity. }
  rewrite K, IH, map_app. reflexivity.
Qed.

(** * Tokens *)

Definition normed (x : token * bool) : token * bool := (norm_token (fst x), snd x).
Lemma norm_keeps t : t_kind t <> STRING_CONTENT -> norm_token t = t.
Proof. exact (norm_other t). Qed.
Lemma flat_no_content k : flat_kind k = true -> k <> STRING_CONTENT.
Proof. intros F ->. discriminate F. Qed.
Lemma nested_normed l : nested l -> nested (map normed l).
Proof.
  induction 1 as [|t b F K Nc|a z b A Z T|a c z b A C Z N T|o c b b' l O C H IH|x y X IX Y IY]; cbn [map]; unfold normed; cbn [fst snd].
  - constructor.
  - rewrite (norm_keeps t (flat_no_content _ F)). constructor; assumption.
  - rewrite (norm_keeps a), (norm_keeps z) by congruence. constructor; assumption.
  - rewrite (norm_keeps a), (norm_keeps z) by congruence. destruct (norm_content c C) as [K E].
    constructor; try assumption. rewrite E. apply drop_cr_not_nil, N.
  - destruct (closer_cases o c O C) as [E|[E|[E|E]]]; injection E as -> ->; rewrite map_app; apply N_pair; try reflexivity; exact IH.
  - rewrite map_app. constructor; assumption.
Qed.
Lemma lexemes_plain t r : flat_kind (t_kind t) = true -> lexemes (t :: r) = t_text t :: lexemes r.
Proof. intros F. cbn [lexemes]. destruct (t_kind t); try discriminate F; reflexivity. Qed.
Lemma lexemes_part t r x l : t_kind t = STRING_OPEN \/ t_kind t = STRING_CONTENT -> lexemes r = x :: l -> lexemes (t :: r) = (t_text t ++ x) :: l.
Proof. intros K E. cbn [lexemes]. destruct K as [-> | ->]; rewrite E; reflexivity. Qed.
Lemma lexemes_last t r : t_kind t = STRING_CLOSE -> lexemes (t :: r) = t_text t :: lexemes r.
Proof. intros K. cbn [lexemes]. rewrite K. reflexivity. Qed.
Lemma lexemes_opener o r x : opener (t_kind o) = Some x -> lexemes (o :: r) = t_text o :: lexemes r.
Proof. intros O. cbn [lexemes]. destruct (t_kind o); try discriminate O; reflexivity. Qed.
Lemma lexemes_closer c b r k : closer (t_kind c) = Some (k, t_text c) -> lexemes (c :: r) = words_of [(c, b)] ++ lexemes r.
Proof.
  destruct c as [n x]. cbn [t_kind t_text]. intros C.
  destruct n; try discriminate C; cbn [closer] in C; injection C as _ <-; reflexivity.
Qed.
Lemma words_lexemes l : nested l -> forall r, lexemes (map fst l ++ r) = words_of l ++ lexemes r.
Proof.
  induction 1 as [|t b F K Nc|a z b A Z T|a c z b A C Z N T|o c b b' l O C H IH|x y X IX Y IY]; intros r; cbn [map fst app].
  - reflexivity.
  - rewrite (lexemes_plain t r F), (words_flat t b F). reflexivity.
  - rewrite (lexemes_part a _ _ _ (or_introl A) (lexemes_last z r Z)). unfold words_of. rewrite (marked_two a z b A Z). reflexivity.
  - rewrite (lexemes_part a _ _ _ (or_introl A) (lexemes_part c _ _ _ (or_intror C) (lexemes_last z r Z))).
    unfold words_of. rewrite (marked_three a c z b A C Z), <- app_assoc. reflexivity.
  - rewrite (pair_words o c b b' l O C H), map_app, <- app_assoc. cbn [map fst app].
    rewrite (lexemes_opener o _ _ O), IH, (lexemes_closer c b' r _ C), <- app_assoc. reflexivity.
  - rewrite map_app, <- app_assoc, IX, IY, (words_app x y Y), app_assoc. reflexivity.
Qed.
Lemma join_snd x y : forall m m', map snd m = map snd m' -> map snd (join_last m x) = map snd (join_last m' y).
Proof.
  induction m as [|[a b] m IH]; intros [|[a' b'] m'] E; try discriminate E; [reflexivity|]. cbn [map snd] in E. injection E as <- E.
  destruct m as [|p m], m' as [|p' m']; try discriminate E; [reflexivity|].
  change (join_last ((a, b) :: p :: m) x) with ((a, b) :: join_last (p :: m) x).
  change (join_last ((a', b) :: p' :: m') y) with ((a', b) :: join_last (p' :: m') y).
  cbn [map snd]. f_equal. apply IH, E.
Qed.
Lemma add_snd m m' x : map snd m = map snd m' -> map snd (add_token m x) = map snd (add_token m' (normed x)).
Proof.
  intros E. destruct x as [t b]. unfold normed. cbn [fst snd].
  destruct (kind_eqb (t_kind t) STRING_CONTENT) eqn:K.
  - apply kind_eqb_eq in K. destruct (norm_content t K) as [K' _].
    rewrite (add_rest m t b (or_introl K)), (add_rest m' (norm_token t) b (or_introl K')). apply join_snd, E.
  - apply kind_eqb_neq in K. rewrite (norm_keeps t K). clear K. unfold add_token.
    destruct (t_kind t); try (rewrite !map_app, E; reflexivity); try exact E; try (apply join_snd, E).
Qed.
Lemma fold_snd l : forall m m', map snd m = map snd m' ->
  map snd (fold_left add_token l m) = map snd (fold_left add_token (map normed l) m').
Proof. induction l as [|x l IH]; intros m m' E; [exact E|]. cbn [fold_left map]. apply IH, add_snd, E. Qed.
Lemma pairs_eq {A B} : forall (a b : list (A * B)), map fst a = map fst b -> map snd a = map snd b -> a = b.
Proof.
  induction a as [|[x y] a IH]; intros [|[x' y'] b] E F; try discriminate; [reflexivity|].
  cbn [map fst snd] in *. injection E as -> E. injection F as -> F. f_equal. auto.
Qed.
Lemma normed_fst l : map fst (map normed l) = map norm_token (map fst l).
Proof. rewrite !map_map. reflexivity. Qed.
Lemma words_all l : nested l -> words_of l = lexemes (map fst l).
Proof. intros N. pose proof (words_lexemes l N []) as E. rewrite !app_nil_r in E. symmetry. exact E. Qed.
Lemma marked_normed l : nested l -> lexemes (map norm_token (map fst l)) = map drop_cr (lexemes (map fst l)) ->
  marked_lexemes (map normed l) = map dropped (marked_lexemes l).
Proof.
  intros N E. apply pairs_eq.
  - change (words_of (map normed l) = map fst (map dropped (marked_lexemes l))).
    rewrite (words_all _ (nested_normed l N)), normed_fst, E, <- (words_all l N). unfold words_of. rewrite !map_map. reflexivity.
  - unfold marked_lexemes. rewrite <- (fold_snd l [] [] eq_refl), map_map. reflexivity.
Qed.
(** What R reads of a node when its line endings are normalised. *)
Definition reads_normed (e : expr) : Prop := marked_lexemes (map normed (lines e)) = map dropped (marked_lexemes (lines e)).
Lemma lexical_normed e : shaped e -> everywhere lexical_node e -> nested (lines e) -> reads_normed e.
Proof.
  intros S L N. apply marked_normed; [exact N|]. rewrite lines_tokens.
  destruct (good_tree e S L) as [[_ ->]|G]; [reflexivity|exact (good_norm _ _ _ G)].
Qed.
Lemma same_normed l : Forall2 same_marked l (map normed l).
Proof. induction l as [|[t b] l IH]; [constructor|]. constructor; [split; [reflexivity|right; apply same_norm_token]|exact IH]. Qed.

Lemma nodes_everywhere (P : expr -> Prop) e : forall g g' x, In (g', x) (nodes g e) -> everywhere P e -> everywhere P x.
Proof.
  assert (RW : forall sep l, Forall (fun e => forall g g' x, In (g', x) (nodes g e) -> everywhere P e -> everywhere P x) l ->
               forall g g' x, In (g', x) (row nodes sep g l) -> all_of (everywhere P) l -> everywhere P x).
  { intros sep l F g g' x H A. destruct (row_in _ _ _ _ _ H) as [a [z [b [-> Hz]]]].
    apply Forall_app in F as [_ F]. pose proof (Forall_inv F _ _ _ Hz) as J. apply J.
    apply all_of_Forall, Forall_app in A as [_ A]. exact (Forall_inv A). }
  induction e using expr_ind'; intros g0 g' x [E|E] Sh;
    try (injection E as <- <-; exact Sh); cbn [nodes everywhere] in *; destruct Sh as [_ Sh];
    repeat match goal with
    | E : In _ (_ ++ _) |- _ => apply in_app_iff in E as [E|E]
    | E : In _ [] |- _ => destruct E
    | H : Popt _ ?d |- _ => destruct d; cbn [Popt opt_all] in *
    | H : _ /\ _ |- _ => destruct H
    end; eauto.
Qed.
