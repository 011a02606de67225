(** Proofs about the formatting rules: which tokens and comments any layout
    shows (C37, C38, C40, C41). *)
From Coq Require Import List Arith Bool NArith Lia Permutation.
From Verif Require Import Text LineEndingModel LineEndingSpec LineEndingProofs SettingsModel
  SettingsProofs BinSearchModel SyntaxKind DirectiveModel FmtTree IrModel TableModel FmtModel FmtSpec.
Import ListNotations.

(** * Counting *)

Lemma text_dec : forall a b : text, {a = b} + {a <> b}.
Proof. apply list_eq_dec, N.eq_dec. Defined.
Definition tcount (c : text) (l : list text) : nat := count_occ text_dec l c.

Lemma tcount_app c a b : tcount c (a ++ b) = tcount c a + tcount c b.
Proof. apply count_occ_app. Qed.
Lemma tcount_cons c x l : tcount c (x :: l) = tcount c [x] + tcount c l.
Proof. apply (tcount_app c [x] l). Qed.

(** * Tokens and comments of operations *)

Definition step_tokens (s : step) : list token :=
  match s with SWord w => word_tokens w | _ => [] end.
Definition step_comments (s : step) : list text :=
  match s with SWord w => word_comments w | _ => [] end.
Definition optokens (os : list op) : list token :=
  flat_map (fun x => match x with OStep s => step_tokens s | OSuffix _ _ => [] end) os.
Definition opcomments (os : list op) : list text :=
  flat_map (fun x => match x with OStep s => step_comments s | OSuffix _ c => [c] end) os.

(** Every comment that is not held back is followed by a line break. *)
Fixpoint closed (os : list op) : Prop :=
  match os with
  | [] => True
  | OStep (SWord (WComment _)) :: r =>
    match r with OStep (SLine _) :: _ => closed r | _ => False end
  | _ :: r => closed r
  end.

Lemma optokens_app a b : optokens (a ++ b) = optokens a ++ optokens b.
Proof. apply flat_map_app. Qed.
Lemma opcomments_app a b : opcomments (a ++ b) = opcomments a ++ opcomments b.
Proof. apply flat_map_app. Qed.
Lemma closed_app a b : closed a -> closed b -> closed (a ++ b).
Proof.
  induction a as [|x a IH]; intros Ha Hb; [exact Hb|].
  destruct x as [[w| |e]|g c]; try (exact (IH Ha Hb)).
  destruct w; try (exact (IH Ha Hb)).
  cbn [closed app] in Ha |- *.
  destruct a as [|[[w| |e]|g c'] a]; try contradiction.
  exact (IH Ha Hb).
Qed.

(** What a piece of output shows, its comments under the condition [P]. *)
Definition emits (P : Prop) (os : list op) (ts : list token) (cs : list text) : Prop :=
  optokens os = ts /\
  (P -> (forall c, tcount c (opcomments os) = tcount c cs) /\ closed os).

Lemma emits_app P a b ta tb ca cb :
  emits P a ta ca -> emits P b tb cb -> emits P (a ++ b) (ta ++ tb) (ca ++ cb).
Proof.
  intros [A1 A2] [B1 B2]. split.
  - rewrite optokens_app, A1, B1. reflexivity.
  - intros H. destruct (A2 H) as [A3 A4], (B2 H) as [B3 B4]. split.
    + intros c. rewrite opcomments_app, !tcount_app, A3, B3. reflexivity.
    + apply closed_app; assumption.
Qed.
Lemma emits_weaken (P Q : Prop) os ts cs : (Q -> P) -> emits P os ts cs -> emits Q os ts cs.
Proof. intros I [A B]. split; [exact A|]. intros q. exact (B (I q)). Qed.
Lemma emits_nil P : emits P [] [] [].
Proof. split; [reflexivity|]. intros _. split; [reflexivity|exact I]. Qed.
Lemma emits_perm (P : Prop) os ts cs cs' :
  (P -> forall c, tcount c cs = tcount c cs') -> emits P os ts cs -> emits P os ts cs'.
Proof.
  intros E [A B]. split; [exact A|]. intros q. destruct (B q) as [C D]. split; [|exact D].
  intros c. rewrite C. apply E, q.
Qed.

(** Neutral pieces: spaces, line breaks, padding. *)
Definition neutral (os : list op) : Prop := optokens os = [] /\ opcomments os = [] /\ closed os.
Lemma neutral_emits P os : neutral os -> emits P os [] [].
Proof. intros [A [B C]]. split; [exact A|]. intros _. rewrite B. split; [reflexivity|exact C]. Qed.
Lemma neutral_nil : neutral [].
Proof. repeat split. Qed.
Lemma neutral_app a b : neutral a -> neutral b -> neutral (a ++ b).
Proof.
  intros [A [B C]] [D [E F]]. repeat split.
  - rewrite optokens_app, A, D. reflexivity.
  - rewrite opcomments_app, B, E. reflexivity.
  - apply closed_app; assumption.
Qed.
Lemma emits_neutral_l P a b tb cb : neutral a -> emits P b tb cb -> emits P (a ++ b) tb cb.
Proof. intros N B. exact (emits_app P a b [] tb [] cb (neutral_emits P a N) B). Qed.
Lemma emits_neutral_r P a b ta ca : neutral b -> emits P a ta ca -> emits P (a ++ b) ta ca.
Proof.
  intros N A. pose proof (emits_app P a b ta [] ca [] A (neutral_emits P b N)) as H.
  rewrite !app_nil_r in H. exact H.
Qed.

(** * Layouts, with groups left wholly free *)

Fixpoint glay (m : mode) (d : doc) (os : list op) : Prop :=
  match d with
  | DNil | DExpandParent => os = []
  | DCat a b => exists x y, glay m a x /\ glay m b y /\ os = x ++ y
  | DWord w => os = [OStep (SWord w)]
  | DSpace => os = [OStep SSpace]
  | DLine LHard => os = [OStep (SLine false)]
  | DLine LEmpty => os = [OStep (SLine true)]
  | DLine LSoft => os = match m with Flat => [] | Expanded => [OStep (SLine false)] end
  | DLine LSoftOrSpace =>
    os = match m with Flat => [OStep SSpace] | Expanded => [OStep (SLine false)] end
  | DIndent d => glay m d os
  | DGroup _ d => exists m', glay m' d os
  | DIfBreaks d => match m with Flat => os = [] | Expanded => glay Expanded d os end
  | DSuffix g c => os = [OSuffix g c]
  | DBest a b => exists m', glay m' a os \/ glay m' b os
  | DPanic => False
  end.

Lemma lay_glay d : forall m os, lay m d os -> glay m d os.
Proof.
  induction d as [|a IHa b IHb|w| |l|d IH|e d IH|d IH| |g c|a IHa b IHb|]; intros m os H;
    try exact H.
  - destruct H as [x [y [A [B C]]]]. exists x, y. auto.
  - exact (IH m os H).
  - destruct e.
    + exists Expanded. apply IH. exact H.
    + destruct H as [m' H]. exists m'. apply IH. exact H.
  - destruct m; [exact H|]. exact (IH Expanded os H).
  - destruct H as [m' [H|H]]; exists m'; [left|right]; auto.
Qed.

Lemma glay_remove_soft d : forall m os, glay m (remove_soft d) os -> glay Flat d os.
Proof.
  induction d as [|a IHa b IHb|w| |l|d IH|e d IH|d IH| |g c|a IHa b IHb|]; intros m os H;
    try exact H.
  - destruct H as [x [y [A [B C]]]]. exists x, y. eauto.
  - destruct l; exact H.
  - exact (IH m os H).
  - destruct H as [m' H]. exists Flat. exact (IH m' os H).
  - destruct H as [m' [H|H]]; exists Flat; [left|right]; eauto.
Qed.

Lemma glay_cat_nil m os : glay m (cat []) os <-> os = [].
Proof. reflexivity. Qed.
Lemma glay_cat_cons m d r os :
  glay m (cat (d :: r)) os <-> exists x y, glay m d x /\ glay m (cat r) y /\ os = x ++ y.
Proof. reflexivity. Qed.
Lemma glay_cat_app m a : forall b os,
  glay m (cat (a ++ b)) os -> exists x y, glay m (cat a) x /\ glay m (cat b) y /\ os = x ++ y.
Proof.
  induction a as [|d a IH]; intros b os H.
  - exists [], os. repeat split. exact H.
  - destruct H as [x [y [A [B ->]]]]. destruct (IH b y B) as [u [v [C [D ->]]]].
    exists (x ++ u), v. split; [exists x, u; auto|]. split; [exact D|]. apply app_assoc.
Qed.

(** Documents that print nothing. *)
Lemma is_nil_glay d : is_nil d = true -> forall m os, glay m d os -> os = [].
Proof.
  induction d; cbn [is_nil]; intros E mm os H; try discriminate.
  - exact H.
  - apply andb_true_iff in E. destruct E as [E1 E2]. destruct H as [x [y [A [B ->]]]].
    rewrite (IHd1 E1 _ _ A), (IHd2 E2 _ _ B). reflexivity.
Qed.
Lemma is_nil_glay_nil d : is_nil d = true -> forall m, glay m d [].
Proof.
  induction d; cbn [is_nil]; intros E mm; try discriminate.
  - reflexivity.
  - apply andb_true_iff in E. destruct E as [E1 E2]. exists [], [].
    repeat split; auto.
Qed.

Lemma line_neutral m l os : glay m (DLine l) os -> neutral os.
Proof. destruct l, m; cbn [glay]; intros ->; repeat split. Qed.
Lemma space_neutral m os : glay m DSpace os -> neutral os.
Proof. cbn [glay]. intros ->. repeat split. Qed.
Lemma maybe_space_neutral m b os : glay m (maybe_space b) os -> neutral os.
Proof. destruct b; cbn [maybe_space glay]; intros ->; repeat split. Qed.

(** Between line breaks. *)
Lemma glay_between m l d os :
  glay m (if is_nil d then DNil else cat [DIndent (DCat (DLine l) d); DLine l]) os ->
  exists x u y, neutral x /\ glay m d u /\ neutral y /\ os = x ++ u ++ y.
Proof.
  destruct (is_nil d) eqn:E.
  - intros H. exists [], [], []. cbn [glay] in H. subst os.
    repeat split. apply is_nil_glay_nil, E.
  - intros [x [y [[a [b [A [B ->]]]] [[u [v [C [D ->]]]] ->]]]].
    exists a, b, (u ++ v). split; [exact (line_neutral _ _ _ A)|]. split; [exact B|]. split.
    + apply neutral_app; [exact (line_neutral _ _ _ C)|]. cbn [glay cat] in D. subst v.
      apply neutral_nil.
    + rewrite <- app_assoc. reflexivity.
Qed.
Lemma glay_block_indent m d os :
  glay m (block_indent d) os ->
  exists x u y, neutral x /\ glay m d u /\ neutral y /\ os = x ++ u ++ y.
Proof. apply glay_between. Qed.
Lemma glay_soft_block_indent m d os :
  glay m (soft_block_indent d) os ->
  exists x u y, neutral x /\ glay m d u /\ neutral y /\ os = x ++ u ++ y.
Proof. apply glay_between. Qed.
Lemma glay_soft_space_indent m d os :
  glay m (soft_space_or_block_indent d) os ->
  exists x u y, neutral x /\ glay m d u /\ neutral y /\ os = x ++ u ++ y.
Proof. apply glay_between. Qed.
Lemma glay_indent m d os : glay m (indent d) os -> glay m d os.
Proof.
  unfold indent. destruct (is_nil d) eqn:E; intros H; [|exact H].
  cbn [glay] in H. subst os. apply is_nil_glay_nil, E.
Qed.
Lemma glay_group m e d os : glay m (group e d) os -> exists m', glay m' d os.
Proof. exact (fun H => H). Qed.

(** * Tokens *)

Lemma same_norm_token t : same_token t (norm_token t).
Proof.
  unfold same_token, norm_token. destruct (kind_eqb (t_kind t) STRING_CONTENT) eqn:E.
  - split; [reflexivity|]. cbn [t_text tk]. rewrite normalize_ref_spec, normalize_spec.
    reflexivity.
  - reflexivity.
Qed.
Lemma token_emits P m t os : glay m (token_doc t) os -> emits P os [norm_token t] [].
Proof.
  unfold token_doc. cbn [glay]. intros ->. split; [reflexivity|]. intros _.
  split; [reflexivity|]. cbn. exact I.
Qed.
Lemma tokens_emit P m ts : forall os,
  glay m (cat (map token_doc ts)) os -> emits P os (map norm_token ts) [].
Proof.
  induction ts as [|t ts IH]; intros os H.
  - cbn [map cat glay] in H. subst os. apply emits_nil.
  - destruct H as [x [y [A [B ->]]]].
    exact (emits_app P x y _ _ _ _ (token_emits P m t x A) (IH y B)).
Qed.

(** * Comments *)

Lemma leading_emits P m cs : forall os,
  glay m (leading_comments cs) os -> emits P os [] (map c_text cs).
Proof.
  unfold leading_comments. induction cs as [|c cs IH]; intros os H.
  - cbn [map cat glay] in H. subst os. apply emits_nil.
  - destruct H as [x [y [A [B ->]]]]. specialize (IH y B).
    cbn [map]. change (c_text c :: map c_text cs) with ([c_text c] ++ map c_text cs).
    refine (emits_app P x y [] [] _ _ _ IH).
    destruct A as [a [b [-> [[u [v [C [D ->]]]] ->]]]]. cbn [cat glay] in D. subst v.
    destruct (1 <? c_after c); cbn [glay] in C; subst u; (split; [reflexivity|]); intros _;
      (split; [reflexivity|exact I]).
Qed.
Lemma trailing_from_emits P m cs : forall lines os,
  glay m (trailing_from lines cs) os -> emits P os [] (map c_text cs).
Proof.
  induction cs as [|c cs IH]; intros lines os H.
  - cbn [trailing_from glay] in H. subst os. apply emits_nil.
  - cbn [trailing_from] in H.
    destruct H as [x [y [A [[u [v [B [[w [z [C [D ->]]]] ->]]]] ->]]]].
    cbn [glay cat] in A, B, D. subst x u z.
    specialize (IH _ w C). rewrite app_nil_r.
    change (map c_text (c :: cs)) with ([c_text c] ++ map c_text cs).
    refine (emits_app P _ _ [] [] _ _ _ IH). split; [reflexivity|]. intros _.
    split; [reflexivity|exact I].
Qed.
Lemma trailing_emits P m cs os :
  glay m (trailing_comments cs) os -> emits P os [] (map c_text cs).
Proof. apply trailing_from_emits. Qed.
Lemma dangling_content_emits P m cs : forall os,
  glay m (dangling_content cs) os -> emits P os [] (map c_text cs).
Proof.
  induction cs as [|c cs IH]; intros os H.
  - cbn [dangling_content glay] in H. subst os. apply emits_nil.
  - assert (X : exists y, glay m (dangling_content cs) y /\
              os = [OStep (SWord (WComment (c_text c))); OStep (SLine false)] ++ y).
    { destruct cs as [|c' cs].
      - destruct H as [x [y [-> [[u [v [-> [-> ->]]]] ->]]]]. exists [].
        split; reflexivity.
      - destruct H as [x [y [-> [[u [v [-> [[w [z [C [-> ->]]]] ->]]]] ->]]]].
        exists w. split; [exact C|]. rewrite app_nil_r. reflexivity. }
    destruct X as [y [B ->]].
    change (map c_text (c :: cs)) with ([c_text c] ++ map c_text cs).
    refine (emits_app P _ _ [] [] _ _ _ (IH y B)). split; [reflexivity|]. intros _.
    split; [reflexivity|exact I].
Qed.
Lemma dangling_soft_emits P m cs os :
  glay m (dangling_soft cs) os -> emits P os [] (map c_text cs).
Proof.
  destruct cs as [|c cs].
  - cbn [dangling_soft glay]. intros ->. apply emits_nil.
  - unfold dangling_soft. intros H. apply glay_group in H. destruct H as [m' H].
    apply glay_soft_block_indent in H. destruct H as [x [u [y [A [B [C ->]]]]]].
    apply emits_neutral_l; [exact A|]. apply emits_neutral_r; [exact C|].
    exact (dangling_content_emits P m' _ u B).
Qed.
Lemma dangling_block_emits P m cs os :
  glay m (dangling_block cs) os -> emits P os [] (map c_text cs).
Proof.
  destruct cs as [|c cs].
  - cbn [dangling_block glay]. intros ->. apply emits_nil.
  - unfold dangling_block. intros H.
    apply glay_block_indent in H. destruct H as [x [u [y [A [B [C ->]]]]]].
    apply emits_neutral_l; [exact A|]. apply emits_neutral_r; [exact C|].
    exact (dangling_content_emits P m _ u B).
Qed.

(** * Copied nodes *)

(** Comments of the children. *)
Definition kids (e : expr) : list text :=
  match e with
  | ELeaf _ _ _ => []
  | EUnary _ _ a | EDefault _ a | EElse _ _ a | ERepeat _ a | EParen _ a
  | ENameClause _ a => ecomments a
  | EBinary _ l _ r | EExtract _ l _ r | ENamespace _ l _ r => ecomments l ++ ecomments r
  | EFunction _ _ a b | EWhile _ a b | ECall _ a b => ecomments a ++ ecomments b
  | EParams _ l | EBraced _ l | EArgs _ _ _ l => concat (map ecomments l)
  | EParam _ a d => ecomments a ++ opt_list ecomments d
  | EIf _ c t el => ecomments c ++ ecomments t ++ opt_list ecomments el
  | EFor _ v s b => ecomments v ++ ecomments s ++ ecomments b
  | EArg _ nm v _ => opt_list ecomments nm ++ opt_list ecomments v
  end.
Lemma ecomments_eq e : ecomments e = wrap_comments (notes_of e) (kids e).
Proof. destruct e; reflexivity. Qed.
Lemma inner_comments_eq e :
  inner_comments e = wrap_comments (inside_notes (notes_of e)) (kids e).
Proof. destruct e; reflexivity. Qed.

Lemma tcount_filter c f l :
  tcount c (map c_text (filter f l)) + tcount c (map c_text (filter (fun x => negb (f x)) l))
  = tcount c (map c_text l).
Proof.
  induction l as [|x l IH]; [reflexivity|]. cbn [filter map].
  rewrite (tcount_cons c (c_text x)), <- IH.
  destruct (f x); cbn [negb map]; rewrite (tcount_cons c (c_text x)); lia.
Qed.
Lemma tcount_outside e c :
  tcount c (map c_text (outside (n_lead (notes_of e)))) + tcount c (inner_comments e)
  + tcount c (map c_text (outside (n_trail (notes_of e)))) = tcount c (ecomments e).
Proof.
  rewrite inner_comments_eq, ecomments_eq. unfold wrap_comments, outside.
  rewrite !tcount_app.
  pose proof (tcount_filter c c_within (n_lead (notes_of e))) as A.
  pose proof (tcount_filter c c_within (n_trail (notes_of e))) as B.
  cbn [inside_notes n_lead n_dang n_trail]. lia.
Qed.

Lemma verbatim_emits P m e os :
  glay m (verbatim e) os -> emits P os (etokens e) (ecomments e).
Proof.
  unfold verbatim. intros [x [y [A [[u [v [B [[w [z [C [D ->]]]] ->]]]] ->]]]].
  cbn [cat glay] in B, D. subst u z. rewrite app_nil_r.
  apply (leading_emits P) in A. apply (trailing_emits P) in C.
  assert (V : emits P [OStep (SWord (WVerb e))] (etokens e) (inner_comments e)).
  { split; [cbn; apply app_nil_r|]. intros _. split; [|exact I].
    intros c. unfold opcomments. cbn [flat_map step_comments word_comments].
    rewrite app_nil_r. reflexivity. }
  pose proof (emits_app _ _ _ _ _ _ _ A (emits_app _ _ _ _ _ _ _ V C)) as H.
  rewrite !app_nil_r in H. cbn [app] in H.
  refine (emits_perm _ _ _ _ _ _ H). intros _ c. rewrite !tcount_app.
  rewrite <- (tcount_outside e c). lia.
Qed.

(** * Nodes *)

Section Node.
Variable o : format_options.

(** [good P e C os]: the output shows a tree satisfying [C] with the comments
    of [e]. *)
Definition good (P : Prop) (e : expr) (C : expr -> Prop) (os : list op) : Prop :=
  exists e', C e' /\ emits P os (etokens e') (ecomments e).

Lemma good_weaken (P Q : Prop) e (C C' : expr -> Prop) os :
  (Q -> P) -> (forall x, C x -> C' x) -> good P e C os -> good Q e C' os.
Proof.
  intros I J [e' [A B]]. exists e'. split; [exact (J _ A)|]. exact (emits_weaken P Q _ _ _ I B).
Qed.

Lemma node_soft_good (P : Prop) anc e fields (C : expr -> Prop) m os :
  (suppressed o anc e = true -> C e) ->
  (suppressed o anc e = false -> forall f, glay m fields f ->
     exists e', C e' /\ emits P f (etokens e') (kids e)) ->
  glay m (node_rule_soft o anc e fields) os -> good P e C os.
Proof.
  unfold node_rule_soft, node_rule. intros S F H.
  destruct (suppressed o anc e) eqn:E.
  - exists e. split; [apply S; reflexivity|]. exact (verbatim_emits P m e os H).
  - destruct H as [x [y [A [[f [z [B [[u [v [D [[w [q [G [K ->]]]] ->]]]] ->]]]] ->]]]].
    destruct (F eq_refl f B) as [e' [Ce Em]]. exists e'. split; [exact Ce|].
    cbn [cat glay] in K. subst q. rewrite app_nil_r.
    apply (leading_emits P) in A. apply (dangling_soft_emits P) in D.
    apply (trailing_emits P) in G.
    pose proof (emits_app _ _ _ _ _ _ _ A (emits_app _ _ _ _ _ _ _ Em
                  (emits_app _ _ _ _ _ _ _ D G))) as X.
    cbn [app] in X. rewrite !app_nil_r in X. rewrite ecomments_eq. exact X.
Qed.

(** Nodes that write their dangling comments among their fields. *)
Lemma node_good (P : Prop) anc e fields (C : expr -> Prop) m os :
  (suppressed o anc e = true -> C e) ->
  (suppressed o anc e = false -> forall f, glay m fields f ->
     exists e', C e' /\ emits P f (etokens e') (kids e ++ map c_text (n_dang (notes_of e)))) ->
  glay m (node_rule o anc e fields DNil) os -> good P e C os.
Proof.
  unfold node_rule. intros S F H.
  destruct (suppressed o anc e) eqn:E.
  - exists e. split; [apply S; reflexivity|]. exact (verbatim_emits P m e os H).
  - destruct H as [x [y [A [[f [z [B [[u [v [D [[w [q [G [K ->]]]] ->]]]] ->]]]] ->]]]].
    destruct (F eq_refl f B) as [e' [Ce Em]]. exists e'. split; [exact Ce|].
    cbn [cat glay] in K, D. subst q u. rewrite app_nil_r. cbn [app].
    apply (leading_emits P) in A. apply (trailing_emits P) in G.
    pose proof (emits_app _ _ _ _ _ _ _ A (emits_app _ _ _ _ _ _ _ Em G)) as X.
    cbn [app] in X. rewrite !app_nil_r in X. rewrite ecomments_eq. unfold wrap_comments.
    rewrite <- app_assoc in X. exact X.
Qed.

(** * Directives *)

Lemma directive_eqb_eq a b : directive_eqb a b = true -> a = b.
Proof. destruct a, b; cbn; congruence. Qed.
Lemma directive_eqb_refl a : directive_eqb a a = true.
Proof. destruct a; reflexivity. Qed.

Lemma has_directive_asked d anc n p :
  q_dir p = can_have_directive anc -> (has_directive d anc n = true <-> asked d p n).
Proof.
  intros E. unfold has_directive, asked. rewrite andb_true_iff, existsb_exists, <- E.
  split; intros [A [c [B C]]]; (split; [exact A|]); exists c; (split; [exact B|]).
  - destruct (parse_comment_directive (c_text c)) as [d'|]; [|discriminate].
    apply directive_eqb_eq in C. congruence.
  - rewrite C. apply directive_eqb_refl.
Qed.

Lemma called_name_calls f name : called_name f = Some name <-> calls f name.
Proof.
  split.
  - intros H. destruct f; try discriminate.
    + cbn in H. destruct ts as [|t [|t' ts]]; try discriminate.
      destruct (kind_eqb k R_IDENTIFIER) eqn:E; [|discriminate].
      apply kind_eqb_eq in E. injection H as <-. subst k. apply calls_name.
    + cbn in H. destruct f2; try discriminate.
      destruct ts as [|t [|t' ts]]; try discriminate.
      destruct (kind_eqb k R_IDENTIFIER) eqn:E; [|discriminate].
      apply kind_eqb_eq in E. injection H as <-. subst k. apply calls_qualified.
  - intros H. inversion H; subst; reflexivity.
Qed.
Lemma contains_sound l name : sorted_strings_contains l name = true -> In name l.
Proof.
  unfold sorted_strings_contains, binary_search_by. intros H.
  destruct l as [|a l]; [discriminate|]. set (ll := a :: l) in *.
  destruct (nth_error ll _) as [x|] eqn:E; [|discriminate].
  destruct (text_cmp x name) eqn:F; try discriminate.
  apply text_cmp_eq in F. subst x. exact (nth_error_In _ _ E).
Qed.
Lemma in_setting_listed names f : in_setting names f = true -> listed names f.
Proof.
  unfold in_setting, listed. intros H. destruct names as [l|]; [|discriminate].
  destruct (called_name f) as [name|] eqn:E; [|discriminate].
  exists l, name. split; [reflexivity|]. split; [apply called_name_calls, E|].
  apply contains_sound, H.
Qed.
Lemma suppressed_asked anc e p :
  q_dir p = can_have_directive anc -> suppressed o anc e = true -> skip_asked o p e.
Proof.
  intros E H. unfold suppressed in H. apply orb_true_iff in H. destruct H as [H|H].
  - left. apply (has_directive_asked DSkip anc _ p E), H.
  - right. destruct e; try discriminate. apply andb_true_iff in H. destruct H as [A B].
    eexists _, _, _. split; [reflexivity|]. split; [|apply in_setting_listed, B].
    destruct e2; try discriminate. destruct k; try discriminate.
    eexists _, _, _, _, _. reflexivity.
Qed.
End Node.
