(** Lexemes of a document: what may come before and after it. *)
From Coq Require Import List NArith Bool Arith Lia String.
From Verif Require Import Text TextFacts LineEndingSpec LineEndingModel LineEndingProofs SettingsModel
  SyntaxKind FmtTree IrModel TableModel FmtModel FmtSpec FmtProofs FmtListProofs FmtRunProofs
  FmtTidyProofs FmtEdgeProofs FmtRowProofs LexSpec LexProofs LexRunProofs.
Import ListNotations.
Open Scope N_scope.

(** * Tokens that can stand before others *)

Definition parted (ts : list token) : Prop := forall r, lexemes (ts ++ r) = lexemes ts ++ lexemes r.
Lemma parted_nil : parted [].
Proof. intros r. reflexivity. Qed.
Lemma parted_app a b : parted a -> parted b -> parted (a ++ b).
Proof. intros A B r. rewrite <- app_assoc, A, B, A, app_assoc. reflexivity. Qed.

Definition op_lexed (x : op) : list token :=
  match x with
  | OStep (SWord (WTok t)) => [t]
  | OStep (SWord (WVerb e)) => map norm_token (etokens e)
  | _ => []
  end.
Definition lexed (os : list op) : list token := flat_map op_lexed os.
Lemma lexed_app a b : lexed (a ++ b) = lexed a ++ lexed b.
Proof. apply flat_map_app. Qed.

Lemma feed_op_marked p x a p' : marked p -> feed_op p x = Some (a, p') -> marked p'.
Proof.
  intros M. destruct x as [[w| |e]|g c]; cbn [feed_op feed_step].
  - apply feed_word_marked, M.
  - apply settle_marked.
  - apply settle_marked.
  - intros E. injection E as _ <-. exact M.
Qed.
Lemma feeds_marked os : forall p a p', marked p -> feeds feed_op p os = Some (a, p') -> marked p'.
Proof.
  induction os as [|x os IH]; intros p a p' M F; cbn [feeds] in F; [injection F as _ <-; exact M|].
  destruct (feed_op p x) as [[b p1]|] eqn:X; [|discriminate].
  destruct (feeds feed_op p1 os) as [[c p2]|] eqn:R; [|discriminate]. injection F as _ <-.
  exact (IH p1 c p2 (feed_op_marked _ _ _ _ M X) R).
Qed.

(** * Documents *)

(** After anything that ends before [f], the document reads as its tokens and
    ends before [g]. *)
Definition seal_ops (f : char -> bool) (os : list op) (g : char -> bool) : Prop :=
  forall p, lets f p -> marked p ->
  exists L p', feeds feed_op p os = Some (L, p') /\ lets g p' /\
    L ++ held p' = held p ++ lexemes (lexed os) /\ parted (lexed os).
Definition seal (f : char -> bool) (d : doc) (g : char -> bool) : Prop :=
  forall m os, glay m d os -> seal_ops f os g.

Definition below (f g : char -> bool) : Prop := forall c, f c = true -> g c = true.
Lemma seal_ops_conseq (f f' g g' : char -> bool) os :
  below f f' -> below g' g -> seal_ops f os g -> seal_ops f' os g'.
Proof.
  intros Bf Bg S p L M. destruct (S p (lets_mono _ _ _ Bf L) M) as [L1 [p1 [E [G [T P]]]]].
  exists L1, p1. split; [exact E|]. split; [exact (lets_mono _ _ _ Bg G)|]. auto.
Qed.
Lemma seal_conseq (f f' g g' : char -> bool) d :
  below f f' -> below g' g -> seal f d g -> seal f' d g'.
Proof. intros Bf Bg S m os H. exact (seal_ops_conseq _ _ _ _ _ Bf Bg (S m os H)). Qed.
Lemma seal_ops_nil f g : below g f -> seal_ops f [] g.
Proof.
  intros B p L M. exists [], p. split; [reflexivity|]. split; [exact (lets_mono _ _ _ B L)|].
  split; [cbn; rewrite app_nil_r; reflexivity|apply parted_nil].
Qed.
Lemma seal_ops_app f a g b h : seal_ops f a g -> seal_ops g b h -> seal_ops f (a ++ b) h.
Proof.
  intros A B p L M. destruct (A p L M) as [L1 [p1 [E1 [G1 [T1 P1]]]]].
  destruct (B p1 G1 (feeds_marked _ _ _ _ M E1)) as [L2 [p2 [E2 [G2 [T2 P2]]]]].
  exists (L1 ++ L2), p2. split; [exact (feeds_cat _ _ _ _ _ _ _ _ E1 E2)|]. split; [exact G2|].
  rewrite lexed_app. split; [|exact (parted_app _ _ P1 P2)].
  rewrite P1, <- app_assoc, T2, !app_assoc, T1. reflexivity.
Qed.

Lemma seal_nil f : seal f DNil f.
Proof. intros m os H. cbn [glay] in H. subst. apply seal_ops_nil. intros c; exact (fun x => x). Qed.
Lemma seal_expand f : seal f DExpandParent f.
Proof. exact (seal_nil f). Qed.
Lemma seal_panic f g : seal f DPanic g.
Proof. intros m os []. Qed.
Lemma seal_suffix f g c : seal f (DSuffix g c) f.
Proof.
  intros m os H. cbn [glay] in H. subst. intros p L M. exists [], p.
  split; [reflexivity|]. split; [exact L|]. split; [cbn; rewrite app_nil_r; reflexivity|apply parted_nil].
Qed.
Lemma seal_cat f a g b h : seal f a g -> seal g b h -> seal f (DCat a b) h.
Proof. intros A B m os [x [y [X [Y ->]]]]. exact (seal_ops_app _ _ _ _ _ (A m x X) (B m y Y)). Qed.
(** Something that ends any lexeme. *)
Lemma settle_seal s f g : (forall p, feed_step p s = settle p) -> op_lexed (OStep s) = [] ->
  seal_ops f [OStep s] g.
Proof.
  intros E X p L M. exists (held p), Between. cbn [feeds feed_op]. rewrite E, (settle_lets p (lets_no f p L)).
  rewrite app_nil_r. split; [reflexivity|]. split; [exact I|]. cbn [lexed flat_map]. rewrite X.
  split; [reflexivity|apply parted_nil].
Qed.
Lemma seal_space f g : seal f DSpace g.
Proof. intros m os H. cbn [glay] in H. subst. apply settle_seal; reflexivity. Qed.
Lemma seal_line l f g : l <> LSoft -> seal f (DLine l) g.
Proof.
  intros N m os H. destruct l, m; try contradiction; cbn [glay] in H; subst;
    apply settle_seal; reflexivity.
Qed.
Lemma seal_any_line l f : seal f (DLine l) f.
Proof.
  destruct l; try (apply seal_line; discriminate). intros m os H. destruct m; cbn [glay] in H; subst;
    [apply seal_ops_nil; intros c; exact (fun x => x)|apply settle_seal; reflexivity].
Qed.
Lemma seal_break f g : seal f (DWord WBreak) g.
Proof. intros m os H. cbn [glay] in H. subst. apply settle_seal; reflexivity. Qed.
Lemma seal_comment c f g : seal f (DWord (WComment c)) g.
Proof. intros m os H. cbn [glay] in H. subst. apply settle_seal; reflexivity. Qed.
Lemma seal_spaces n f : seal f (write_spaces n) f.
Proof.
  unfold write_spaces. destruct n as [|n]; [apply seal_nil|].
  intros m os H. cbn in H. subst. apply settle_seal; reflexivity.
Qed.
Lemma seal_group f e d g : seal f d g -> seal f (DGroup e d) g.
Proof. intros S m os [m' H]. exact (S m' os H). Qed.
Lemma seal_dindent f d g : seal f d g -> seal f (DIndent d) g.
Proof. intros S m os H. exact (S m os H). Qed.
Lemma seal_indent f d g : seal f d g -> seal f (indent d) g.
Proof. intros S m os H. exact (S m os (glay_indent _ _ _ H)). Qed.
Lemma seal_best f a b g : seal f a g -> seal f b g -> seal f (DBest a b) g.
Proof. intros A B m os [m' [H|H]]; [exact (A m' os H)|exact (B m' os H)]. Qed.
Lemma seal_if_breaks f d g : below g f -> seal f d g -> seal f (DIfBreaks d) g.
Proof. intros Bl S m os H. destruct m; cbn [glay] in H; [subst; apply seal_ops_nil, Bl|exact (S _ _ H)]. Qed.
Lemma seal_remove_soft f d g : seal f d g -> seal f (remove_soft d) g.
Proof. intros S m os H. exact (S Flat os (glay_remove_soft _ _ _ H)). Qed.
Lemma seal_maybe_space b f : seal f (maybe_space b) f.
Proof. destruct b; [apply seal_space|apply seal_nil]. Qed.
Lemma seal_between l f d g : seal f d g ->
  seal f (if is_nil d then DNil else cat [DIndent (DCat (DLine l) d); DLine l]) g.
Proof.
  intros S. destruct (is_nil d) eqn:E.
  - intros m os H. cbn [glay] in H. subst. exact (S m [] (is_nil_glay_nil d E m)).
  - apply seal_cat with g; [apply seal_dindent, seal_cat with f; [apply seal_any_line|exact S]|].
    apply seal_cat with g; [apply seal_any_line|apply seal_nil].
Qed.
Lemma seal_block f d g : seal f d g -> seal f (block_indent d) g.
Proof. apply seal_between. Qed.
Lemma seal_soft f d g : seal f d g -> seal f (soft_block_indent d) g.
Proof. apply seal_between. Qed.
Lemma seal_soft_space f d g : seal f d g -> seal f (soft_space_or_block_indent d) g.
Proof. apply seal_between. Qed.

Lemma below_refl f : below f f.
Proof. intros c H. exact H. Qed.
Lemma below_no f : below no_char f.
Proof. intros c H. discriminate. Qed.
Definition any_char (c : char) : bool := true.
Lemma below_any f : below f any_char.
Proof. intros c _. reflexivity. Qed.
Lemma seal_entry f f' d g : below f f' -> seal f d g -> seal f' d g.
Proof. intros B. apply seal_conseq; [exact B|apply below_refl]. Qed.
Lemma seal_exit f d g g' : below g' g -> seal f d g -> seal f d g'.
Proof. intros B. apply seal_conseq; [apply below_refl|exact B]. Qed.

Lemma seal_leading cs f : seal f (leading_comments cs) f.
Proof.
  unfold leading_comments. induction cs as [|c cs IH]; [apply seal_nil|]. cbn [map cat].
  apply seal_cat with f; [|exact IH]. apply seal_cat with f; [apply seal_comment|].
  apply seal_cat with f; [apply seal_any_line|apply seal_nil].
Qed.
Lemma seal_trailing cs f : seal f (trailing_comments cs) f.
Proof.
  unfold trailing_comments. generalize 0%nat. induction cs as [|c cs IH]; intros k; [apply seal_nil|].
  cbn [trailing_from cat]. apply seal_cat with f; [apply seal_suffix|].
  apply seal_cat with f; [apply seal_expand|]. apply seal_cat with f; [apply IH|apply seal_nil].
Qed.
Lemma seal_dangling_content cs f : seal f (dangling_content cs) f.
Proof.
  induction cs as [|c cs IH]; [apply seal_nil|].
  assert (L : seal f (DLine LHard) f) by apply seal_any_line.
  destruct cs as [|c' cs].
  - cbn [dangling_content cat]. apply seal_cat with f; [apply seal_comment|].
    apply seal_cat with f; [exact L|apply seal_nil].
  - change (dangling_content (c :: c' :: cs)) with
      (cat [DWord (WComment (c_text c)); DLine LHard; dangling_content (c' :: cs)]). cbn [cat].
    apply seal_cat with f; [apply seal_comment|]. apply seal_cat with f; [exact L|].
    apply seal_cat with f; [exact IH|apply seal_nil].
Qed.
Lemma seal_dangling_soft cs f : seal f (dangling_soft cs) f.
Proof. destruct cs; [apply seal_nil|]. apply seal_group, seal_soft, seal_dangling_content. Qed.
Lemma seal_dangling_block cs f : seal f (dangling_block cs) f.
Proof. destruct cs; [apply seal_nil|]. apply seal_block, seal_dangling_content. Qed.

(** * Tokens *)

(** The last lexeme read ends before [g]; the first one starts with an [f]. *)
Record good (f g : char -> bool) (ts : list token) : Prop := {
  good_parted : parted ts;
  good_norm_parted : parted (map norm_token ts);
  good_norm : lexemes (map norm_token ts) = map drop_cr (lexemes ts);
  good_some : lexemes ts <> [];
  good_first : starts_with f (hd [] (lexemes ts));
  good_whole : Forall (fun x => exists l, whole x l) (lexemes ts);
  good_last : forall l, whole (last (lexemes ts) []) l -> lets g (Inside l (last (lexemes ts) []))
}.
Lemma good_app f g f' g' a b : good f g a -> good f' g' b -> good f g' (a ++ b).
Proof.
  intros [A1 A2 A3 A4 A5 A6 A7] [B1 B2 B3 B4 B5 B6 B7]. split.
  - apply parted_app; assumption.
  - rewrite map_app. apply parted_app; assumption.
  - rewrite map_app, A2, A1, map_app, A3, B3. reflexivity.
  - rewrite A1. intros E. apply app_eq_nil in E. tauto.
  - rewrite A1. destruct (lexemes a); [contradiction|exact A5].
  - rewrite A1. apply Forall_app. auto.
  - rewrite A1. intros l.
    assert (E : last (lexemes a ++ lexemes b) [] = last (lexemes b) []).
    { clear -B4. induction (lexemes a) as [|x [|y r] IH]; cbn [app]; [reflexivity| |exact IH].
      destruct (lexemes b); [contradiction|reflexivity]. }
    rewrite E. apply B7.
Qed.
Lemma good_conseq f f' g g' ts : below f f' -> below g' g -> good f g ts -> good f' g' ts.
Proof.
  intros Bf Bg [A1 A2 A3 A4 A5 A6 A7]. split; try assumption.
  - destruct (hd [] (lexemes ts)); [exact A5|apply Bf, A5].
  - intros l W. exact (lets_mono _ _ _ Bg (A7 l W)).
Qed.

(** One token that is one lexeme and has no line break of its own. *)
Definition single (f g : char -> bool) (t : token) : Prop :=
  plain_token t /\ norm_token t = t /\ drop_cr (t_text t) = t_text t /\ starts_with f (t_text t) /\
  exists l, whole (t_text t) l /\ lets g (Inside l (t_text t)).
Lemma plain_lexemes t r : plain_token t -> lexemes (t :: r) = t_text t :: lexemes r.
Proof. unfold plain_token. cbn [lexemes]. destruct (t_kind t); try contradiction; reflexivity. Qed.
Lemma plain_parted t : plain_token t -> parted [t].
Proof. intros P r. cbn [app]. rewrite !plain_lexemes by exact P. reflexivity. Qed.
Lemma single_good f g t : single f g t -> good f g [t].
Proof.
  intros [P [N [D [S [l [W L]]]]]]. split; cbn [map]; rewrite ?N.
  - apply plain_parted, P.
  - apply plain_parted, P.
  - rewrite plain_lexemes by exact P. cbn. rewrite D. reflexivity.
  - rewrite plain_lexemes by exact P. discriminate.
  - rewrite plain_lexemes by exact P. exact S.
  - rewrite plain_lexemes by exact P. constructor; [exists l; exact W|constructor].
  - rewrite plain_lexemes by exact P. cbn [lexemes last]. intros l' W'.
    rewrite (whole_unique _ _ _ W' W). exact L.
Qed.

(** Tokens printed one after the other. *)
Definition token_ops (ts : list token) : list op := map (fun t => OStep (SWord (WTok t))) ts.
Lemma token_feeds p t b p' : see_all p (t_text t) = Some (b, p') -> b ++ held p' = joined (held p) t ->
  feed_op p (OStep (SWord (WTok t))) = Some (code b, p').
Proof.
  intros E J. cbn [feed_op feed_step feed_word]. rewrite E.
  apply texts_eqb_eq in J. rewrite J. reflexivity.
Qed.
Lemma plain_joined h t : plain_token t -> joined h t = h ++ [t_text t].
Proof. unfold plain_token, joined. destruct (t_kind t); try contradiction; reflexivity. Qed.
Lemma open_joined h t : t_kind t = STRING_OPEN -> joined h t = h ++ [t_text t].
Proof. unfold joined. intros ->. reflexivity. Qed.
Lemma rest_joined x t : t_kind t = STRING_CONTENT \/ t_kind t = STRING_CLOSE ->
  joined [x] t = [x ++ t_text t].
Proof. unfold joined. intros [->| ->]; reflexivity. Qed.
Lemma rest_feeds ts : forall l x l', Forall (fun t => t_kind t = STRING_CONTENT \/ t_kind t = STRING_CLOSE) ts ->
  whole (x ++ List.concat (map t_text ts)) l' -> x <> [] -> see_all Between x = Some ([], Inside l x) ->
  feeds feed_op (Inside l x) (token_ops ts) = Some ([], Inside l' (x ++ List.concat (map t_text ts))).
Proof.
  induction ts as [|t ts IH]; intros l x l' F W N E; cbn [map List.concat token_ops feeds] in *.
  - rewrite app_nil_r in *. destruct W as [W _]. rewrite E in W. injection W as ->. reflexivity.
  - inversion F as [|? ? F1 F2]; subst. rewrite app_assoc in *. destruct W as [W C].
    assert (Ne : x ++ t_text t <> []) by (destruct x; [contradiction|discriminate]).
    destruct (see_all_prefix (x ++ t_text t) _ _ _ W ltac:(rewrite !app_length; lia) Ne) as [l1 [E1 _]].
    pose proof E1 as E2. rewrite see_all_app, E in E2.
    destruct (see_all (Inside l x) (t_text t)) as [[b p1]|] eqn:E3; [|discriminate].
    cbn [app] in E2. injection E2 as -> ->.
    rewrite (token_feeds _ t [] (Inside l1 (x ++ t_text t)) E3)
      by (cbn [held app]; symmetry; apply rest_joined, F1).
    change (map (fun t => OStep (SWord (WTok t))) ts) with (token_ops ts).
    rewrite (IH l1 (x ++ t_text t) l' F2 (conj W C) Ne E1). reflexivity.
Qed.
Lemma atom_feeds t ts l p : plain_token t \/ t_kind t = STRING_OPEN ->
  Forall (fun t => t_kind t = STRING_CONTENT \/ t_kind t = STRING_CLOSE) ts -> t_text t <> [] ->
  whole (List.concat (map t_text (t :: ts))) l ->
  blocks p (hd 0 (List.concat (map t_text (t :: ts)))) ->
  feeds feed_op p (token_ops (t :: ts)) = Some (code (held p), Inside l (List.concat (map t_text (t :: ts)))).
Proof.
  intros K F N W B. cbn [map List.concat] in *. pose proof W as [W1 C].
  destruct (see_all_prefix (t_text t) _ _ _ W1 ltac:(rewrite app_length; reflexivity) N) as [l1 [E1 _]].
  destruct (t_text t) as [|c x] eqn:Et; [contradiction|]. cbn [app hd] in B.
  assert (E2 : see_all p (t_text t) = Some (held p, Inside l1 (t_text t))).
  { rewrite Et, (enter p c x B), E1, app_nil_r. reflexivity. }
  change (token_ops (t :: ts)) with (OStep (SWord (WTok t)) :: token_ops ts). cbn [feeds].
  rewrite (token_feeds p t _ _ E2)
    by (cbn [held]; symmetry; destruct K as [K|K]; [apply plain_joined, K|apply open_joined, K]).
  rewrite <- Et in *. rewrite (rest_feeds ts l1 (t_text t) l F W N E1), app_nil_r. reflexivity.
Qed.
Lemma glay_tokens m ts : forall os, glay m (cat (map token_doc ts)) os ->
  os = map (fun t => OStep (SWord (WTok t))) (map norm_token ts).
Proof.
  induction ts as [|t ts IH]; intros os H; [exact H|]. cbn [map cat] in H.
  destruct H as [x [y [A [B ->]]]]. cbn [token_doc glay] in A. subst x. rewrite (IH y B). reflexivity.
Qed.
Lemma lexed_tokens ts : lexed (map (fun t => OStep (SWord (WTok t))) ts) = ts.
Proof. induction ts as [|t ts IH]; [reflexivity|]. unfold lexed in *. cbn. rewrite IH. reflexivity. Qed.
Lemma seal_tokens f g ts a p1 : let s := List.concat (map t_text (map norm_token ts)) in
  see_all Between s = Some (a, p1) -> starts_with f s -> lets g p1 ->
  code a ++ held p1 = lexemes (map norm_token ts) -> parted (map norm_token ts) ->
  (forall p, blocks p (hd 0 s) ->
     feeds feed_op p (token_ops (map norm_token ts)) = Some (code (held p ++ a), p1)) ->
  seal f (cat (map token_doc ts)) g.
Proof.
  intros s E S L C P Fd m os H. rewrite (glay_tokens _ _ _ H). intros p Lp M. rewrite lexed_tokens.
  destruct s as [|c r] eqn:Es; [contradiction|]. cbn [starts_with] in S.
  exists (code (held p ++ a)), p1.
  split; [exact (Fd p (lets_blocks f p c Lp S))|].
  split; [exact L|]. split; [|exact P].
  rewrite code_app, (held_code p M (lets_no f p Lp)), <- app_assoc, C. reflexivity.
Qed.
Lemma seal_cat_nil f d g : seal f (DCat d DNil) g -> seal f d g.
Proof. intros S m os H. apply (S m). exists os, []. rewrite app_nil_r. split; [exact H|split; reflexivity]. Qed.
Lemma whole_uncommented s l g : whole s l -> lets g (Inside l s) -> is_comment s = false.
Proof.
  intros [W _] [_ [C _]]. pose proof (see_all_marked s Between _ _ I W) as [_ M]. rewrite <- M. exact C.
Qed.
Lemma seal_single f g t : single f g t -> seal f (token_doc t) g.
Proof.
  intros [P [N [D [S [l [W L]]]]]]. apply seal_cat_nil. change (DCat (token_doc t) DNil) with (cat (map token_doc [t])).
  destruct W as [W C]. apply (seal_tokens f g [t] [] (Inside l (t_text t))); cbn [map List.concat]; rewrite ?N, ?app_nil_r.
  - exact W.
  - exact S.
  - exact L.
  - rewrite plain_lexemes by exact P. reflexivity.
  - apply plain_parted, P.
  - intros p B. rewrite app_nil_r.
    pose proof (atom_feeds t [] l p (or_introl P) ltac:(constructor)) as X. cbn [map List.concat] in X.
    rewrite app_nil_r in X. apply X; [destruct (t_text t); [contradiction|discriminate]|exact (conj W C)|exact B].
Qed.

(** Operators and keywords, by computation. *)
Definition plainb (k : kind) : bool :=
  match k with
  | STRING_OPEN | STRING_CONTENT | STRING_CLOSE | R_BRACK2 | UNICODE_BOM => false
  | _ => true
  end.
Definition op_ok (f g : char -> bool) (k : kind) (s : text) : bool :=
  plainb k && text_eqb (drop_cr s) s &&
  match s with c :: _ => f c | [] => false end &&
  existsb (text_eqb s) operators && op_free g s &&
  match see_all Between s with
  | Some ([], Inside (LOperator u) v) => text_eqb u s && text_eqb v s
  | _ => false
  end.
Lemma plainb_plain t : plainb (t_kind t) = true -> plain_token t /\ norm_token t = t.
Proof.
  unfold plainb, plain_token, norm_token. intros H.
  destruct (kind_eqb (t_kind t) STRING_CONTENT) eqn:E.
  - apply kind_eqb_eq in E. rewrite E in H. discriminate.
  - destruct (t_kind t); try discriminate; auto.
Qed.
Lemma op_ok_single f g k s : op_ok f g k s = true -> single f g (tk k s).
Proof.
  unfold op_ok. rewrite !andb_true_iff. intros [[[[[P D] S] O] F] W].
  destruct (plainb_plain (tk k s) P) as [P1 P2]. split; [exact P1|]. split; [exact P2|].
  cbn [t_text tk]. split; [apply text_eqb_eq, D|].
  split; [destruct s; [discriminate|exact S]|].
  destruct (see_all Between s) as [[[|x a] [|l v]]|] eqn:E; try discriminate.
  destruct l; try discriminate. apply andb_true_iff in W. destruct W as [W1 W2].
  apply text_eqb_eq in W1, W2. subst t v. exists (LOperator s). split.
  - split; [exact E|exact O].
  - apply op_lets; assumption.
Qed.
Definition keyword_ok (f g : char -> bool) (k : kind) (s : text) : bool :=
  plainb k && text_eqb (drop_cr s) s &&
  match s with c :: _ => f c && atom_char c | [] => false end &&
  match see_all Between s with
  | Some ([], Inside LName v) => text_eqb v s
  | _ => false
  end.
Lemma keyword_ok_single f k s : keyword_ok f follow_char k s = true -> single f follow_char (tk k s).
Proof.
  unfold keyword_ok. rewrite !andb_true_iff. intros [[[P D] S] W].
  destruct (plainb_plain (tk k s) P) as [P1 P2]. split; [exact P1|]. split; [exact P2|].
  cbn [t_text tk]. split; [apply text_eqb_eq, D|].
  assert (S2 : starts_with f s /\ starts_with atom_char s)
    by (destruct s; [discriminate|apply andb_true_iff in S; exact S]).
  split; [apply S2|].
  destruct (see_all Between s) as [[[|x a] [|l v]]|] eqn:E; try discriminate.
  destruct l; try discriminate. apply text_eqb_eq in W. subst v.
  assert (Wh : whole s LName) by (split; [exact E|reflexivity]).
  exists LName. split; [exact Wh|]. exact (atom_ended s LName Wh (proj2 S2)).
Qed.
Lemma token_eta t : t = tk (t_kind t) (t_text t).
Proof. destruct t. reflexivity. Qed.
Lemma operator_single f g ks t : operator ks t ->
  forallb (fun k => match operator_text k with Some s => op_ok f g k s | None => false end) ks = true ->
  single f g t.
Proof.
  intros [I T] H. rewrite forallb_forall in H. specialize (H _ I). rewrite T in H.
  rewrite (token_eta t). apply op_ok_single, H.
Qed.

(** %op% *)
Lemma special_no_lf r : forall t l' t', see_all (Inside LSpecial t) r = Some ([], Inside l' t') ->
  complete_lexeme l' = true -> ~ In LF r.
Proof.
  assert (Cl : forall r t x p, see_all (Inside LClosed t) r = Some ([], Inside x p) -> r = []).
  { intros [|c0 r0] t x p H; [reflexivity|]. cbn [see_all see extend complete_lexeme] in H.
    destruct (begin c0) as [p1|]; [|discriminate]. destruct (see_all p1 r0) as [[b q]|]; discriminate. }
  induction r as [|c r IH]; intros t l' t' H C; [intros []|]. cbn [see_all see extend] in H.
  destruct (N.eqb_spec c PERCENT) as [->|Np].
  - destruct (see_all (Inside LClosed _) r) as [[b q]|] eqn:E; [|discriminate]. injection H as -> ->.
    rewrite (Cl _ _ _ _ E). intros [X|[]]. discriminate.
  - destruct (N.eqb_spec c LF) as [->|Nl].
    + cbn [complete_lexeme] in H. discriminate.
    + destruct (see_all (Inside LSpecial _) r) as [[b q]|] eqn:E; [|discriminate]. injection H as -> ->.
      intros [X|X]; [congruence|]. exact (IH _ _ _ E C X).
Qed.
Lemma drop_cr_no_lf s : ~ In LF s -> drop_cr s = s.
Proof.
  induction s as [|c s IH]; intros N; [reflexivity|]. rewrite drop_cr_cons.
  destruct (crlf_head c s) eqn:E.
  - apply crlf_head_true in E. destruct E as [r [-> ->]]. destruct N. right. left. reflexivity.
  - rewrite IH by (intros X; apply N; right; exact X). reflexivity.
Qed.
Lemma special_single t : special_operator t -> single any_char no_char t.
Proof.
  intros [K [O S]]. destruct (one_whole _ O) as [l W].
  assert (P : plainb (t_kind t) = true) by (rewrite K; reflexivity).
  destruct (plainb_plain t P) as [P1 P2]. split; [exact P1|]. split; [exact P2|].
  assert (X : ~ In LF (t_text t) /\ lets no_char (Inside l (t_text t))).
  { destruct W as [W C]. destruct (t_text t) as [|c r]; [contradiction|]. cbn [starts_with] in S.
    apply N.eqb_eq in S. subst c. pose proof (see_all_marked _ Between _ _ I W) as [_ M].
    cbn [see_all see] in W. change (begin PERCENT) with (Some (Inside LSpecial [PERCENT])) in W. cbv iota in W.
    destruct (see_all (Inside LSpecial [PERCENT]) r) as [[b q]|] eqn:E; [|discriminate].
    injection W as -> ->. split.
    - intros [Z|Z]; [discriminate|]. exact (special_no_lf _ _ _ _ E C Z).
    - split; [exact C|]. split; [exact M|discriminate]. }
  split; [apply drop_cr_no_lf, X|]. split; [destruct (t_text t); [contradiction|reflexivity]|].
  exists l. split; [exact W|apply X].
Qed.

(** Leaves. *)
Lemma drop_cr_app_l a b : ~ In CR a -> drop_cr (a ++ b) = a ++ drop_cr b.
Proof.
  induction a as [|c a IH]; intros N; [reflexivity|]. cbn [app]. rewrite drop_cr_cons.
  destruct (crlf_head c (a ++ b)) eqn:E.
  - apply crlf_head_true in E. destruct E as [r [-> _]]. destruct N. left. reflexivity.
  - rewrite IH by (intros X; apply N; right; exact X). reflexivity.
Qed.
Lemma drop_cr_app_r a b : ~ In LF b -> drop_cr (a ++ b) = drop_cr a ++ b.
Proof.
  intros N. induction a as [|c a IH].
  - cbn [app]. rewrite drop_cr_no_lf by exact N. reflexivity.
  - cbn [app]. rewrite !drop_cr_cons, IH.
    assert (E : crlf_head c (a ++ b) = crlf_head c a).
    { destruct a as [|d a]; [|reflexivity]. unfold crlf_head. cbn [app].
      destruct b as [|d b]; [reflexivity|]. destruct (c =? CR); [|reflexivity].
      destruct (N.eqb_spec d LF) as [->|]; [destruct N; left; reflexivity|reflexivity]. }
    rewrite E. destruct (crlf_head c a); reflexivity.
Qed.
Lemma starts_app f a b : starts_with f a -> starts_with f (a ++ b).
Proof. destruct a; [intros []|exact (fun x => x)]. Qed.
Lemma atom_not_cr c : atom_char c = true -> c <> CR.
Proof. intros H ->. discriminate. Qed.
Lemma drop_cr_starts s : starts_with atom_char s -> starts_with atom_char (drop_cr s).
Proof.
  destruct s as [|c r]; [intros []|]. cbn [starts_with]. intros H. rewrite drop_cr_cons.
  destruct (crlf_head c r) eqn:E; [|exact H].
  apply crlf_head_true in E. destruct E as [r' [-> _]]. discriminate.
Qed.
(** Tokens that make one lexeme together. *)
Lemma one_atom ts s : lexemes ts = [s] -> lexemes (map norm_token ts) = [drop_cr s] ->
  parted ts -> parted (map norm_token ts) -> List.concat (map t_text (map norm_token ts)) = drop_cr s ->
  one_lexeme s -> starts_with atom_char s ->
  (exists t r, map norm_token ts = t :: r /\ (plain_token t \/ t_kind t = STRING_OPEN) /\ t_text t <> [] /\
     Forall (fun t => t_kind t = STRING_CONTENT \/ t_kind t = STRING_CLOSE) r) ->
  good atom_char follow_char ts /\ seal atom_char (cat (map token_doc ts)) follow_char.
Proof.
  intros E1 E2 P1 P2 C O S [t0 [r0 [Et [Kt [Nt Ft]]]]]. destruct (one_whole s O) as [l W].
  pose proof (whole_norm s l W) as W'. pose proof (drop_cr_starts s S) as S'. split.
  - split; rewrite ?E1, ?E2.
    + exact P1.
    + exact P2.
    + reflexivity.
    + discriminate.
    + exact S.
    + constructor; [exists l; exact W|constructor].
    + cbn [last]. intros l' Wl. exact (atom_ended s l' Wl S).
  - destruct W' as [W1 W2]. apply (seal_tokens _ _ ts [] (Inside l (drop_cr s))); rewrite ?C, ?E2.
    + exact W1.
    + exact S'.
    + apply atom_ended; [split; [exact W1|exact W2]|exact S'].
    + reflexivity.
    + exact P2.
    + intros p B. rewrite app_nil_r, Et. rewrite Et in C.
      rewrite <- C in B, W1 |- *. exact (atom_feeds t0 r0 l p Kt Ft Nt (conj W1 W2) B).
Qed.
Lemma norm_other t : t_kind t <> STRING_CONTENT -> norm_token t = t.
Proof.
  intros N. unfold norm_token. destruct (kind_eqb (t_kind t) STRING_CONTENT) eqn:E; [|reflexivity].
  apply kind_eqb_eq in E. contradiction.
Qed.
Lemma norm_content t : t_kind t = STRING_CONTENT ->
  t_kind (norm_token t) = STRING_CONTENT /\ t_text (norm_token t) = drop_cr (t_text t).
Proof.
  intros E. unfold norm_token. rewrite E.
  change (kind_eqb STRING_CONTENT STRING_CONTENT) with true. cbn iota. cbn [t_kind t_text tk].
  split; [reflexivity|]. rewrite normalize_ref_spec. apply normalize_drop.
Qed.
Lemma open_lexemes t r : t_kind t = STRING_OPEN \/ t_kind t = STRING_CONTENT ->
  lexemes (t :: r) = match lexemes r with x :: l => (t_text t ++ x) :: l | [] => [t_text t] end.
Proof.
  intros H. change (lexemes (t :: r)) with
    (match t_kind t with
     | STRING_OPEN | STRING_CONTENT =>
       match lexemes r with x :: l => (t_text t ++ x) :: l | [] => [t_text t] end
     | R_BRACK2 => map (fun c => [c]) (t_text t) ++ lexemes r
     | UNICODE_BOM => lexemes r
     | _ => t_text t :: lexemes r
     end).
  destruct H as [->| ->]; reflexivity.
Qed.
Lemma close_lexemes t r : t_kind t = STRING_CLOSE -> lexemes (t :: r) = t_text t :: lexemes r.
Proof. intros H. rewrite (token_eta t), H. reflexivity. Qed.
Lemma string2_lexemes a z r : t_kind a = STRING_OPEN -> t_kind z = STRING_CLOSE ->
  lexemes (a :: z :: r) = (t_text a ++ t_text z) :: lexemes r.
Proof. intros A Z. rewrite open_lexemes, close_lexemes by auto. reflexivity. Qed.
Lemma string3_lexemes a b z r :
  t_kind a = STRING_OPEN -> t_kind b = STRING_CONTENT -> t_kind z = STRING_CLOSE ->
  lexemes (a :: b :: z :: r) = (t_text a ++ t_text b ++ t_text z) :: lexemes r.
Proof. intros A B Z. rewrite open_lexemes, open_lexemes, close_lexemes by auto. reflexivity. Qed.
Lemma leaf_good ts : leaf_tokens ts ->
  good atom_char follow_char ts /\ seal atom_char (cat (map token_doc ts)) follow_char.
Proof.
  destruct ts as [|a [|b [|z [|]]]]; try contradiction.
  - intros [P [O [S N]]].
    assert (Na : norm_token a = a).
    { apply norm_other. intros E. unfold plain_token in P. rewrite E in P. exact P. }
    apply (one_atom [a] (t_text a)); cbn [map List.concat]; rewrite ?Na, ?app_nil_r;
      try (rewrite drop_cr_no_lf by exact N); try (apply plain_parted, P); try assumption;
      try reflexivity; try (rewrite plain_lexemes by exact P; reflexivity).
    exists a, []. split; [reflexivity|]. split; [left; exact P|].
    split; [destruct (t_text a); [contradiction|discriminate]|constructor].
  - intros [A [Z [O [S [N1 N2]]]]]. cbn [app] in O, S.
    assert (D : drop_cr (t_text a ++ t_text b) = t_text a ++ t_text b)
      by (rewrite drop_cr_app_l by exact N1; rewrite drop_cr_no_lf by exact N2; reflexivity).
    assert (Na : norm_token a = a) by (apply norm_other; rewrite A; discriminate).
    assert (Nb : norm_token b = b) by (apply norm_other; rewrite Z; discriminate).
    assert (P : parted [a; b]).
    { intros r. cbn [app]. rewrite !string2_lexemes by assumption. reflexivity. }
    apply (one_atom [a; b] (t_text a ++ t_text b)); cbn [map List.concat]; rewrite ?Na, ?Nb, ?D, ?app_nil_r;
      try assumption; try reflexivity; try (rewrite string2_lexemes by assumption; reflexivity).
    + apply starts_app, S.
    + exists a, [b]. split; [reflexivity|]. split; [right; exact A|].
      split; [destruct (t_text a); [contradiction|discriminate]|].
      constructor; [right; exact Z|constructor].
  - intros [A [B [Z [O [S [N1 N2]]]]]].
    assert (D : drop_cr (t_text a ++ t_text b ++ t_text z) = t_text a ++ drop_cr (t_text b) ++ t_text z)
      by (rewrite drop_cr_app_l by exact N1; rewrite drop_cr_app_r by exact N2; reflexivity).
    assert (Na : norm_token a = a) by (apply norm_other; rewrite A; discriminate).
    assert (Nz : norm_token z = z) by (apply norm_other; rewrite Z; discriminate).
    destruct (norm_content b B) as [B1 B2].
    assert (P : parted [a; b; z]).
    { intros r. cbn [app]. rewrite !string3_lexemes by assumption. reflexivity. }
    assert (P' : parted [a; norm_token b; z]).
    { intros r. cbn [app]. rewrite !string3_lexemes by assumption. reflexivity. }
    apply (one_atom [a; b; z] (t_text a ++ t_text b ++ t_text z)); cbn [map List.concat];
      rewrite ?Na, ?Nz, ?D, ?app_nil_r; try assumption.
    + rewrite string3_lexemes by assumption. reflexivity.
    + rewrite string3_lexemes by assumption. rewrite B2. reflexivity.
    + rewrite B2. reflexivity.
    + apply starts_app, S.
    + exists a, [norm_token b; z]. split; [reflexivity|]. split; [right; exact A|].
      split; [destruct (t_text a); [contradiction|discriminate]|].
      constructor; [left; exact B1|]. constructor; [right; exact Z|constructor].
Qed.
