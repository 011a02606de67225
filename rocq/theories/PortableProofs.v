(** [else] follows code on its line, in every layout (C59). *)
From Coq Require Import List NArith Bool Arith Lia.
From Verif Require Import Text SettingsModel SyntaxKind DirectiveModel FmtTree IrModel TableModel FmtModel
  FmtSpec FmtProofs FmtListProofs FmtRunProofs FmtTidyProofs FmtRootProofs FmtFactProofs FmtEdgeProofs
  FmtRowProofs PortableSpec.
Import ListNotations.

(** * Following the line *)

(** The last thing on the line: code, code and blanks, or anything else. *)
Inductive spot := Elsewhere | OnCode | AfterGap.
Definition gapped (s : spot) : spot := match s with Elsewhere => Elsewhere | _ => AfterGap end.
Definition walk_word (s : spot) (w : word) : option spot :=
  match w with
  | WTok t =>
    if kind_eqb (t_kind t) ELSE_KW
    then match s with AfterGap => Some OnCode | _ => None end
    else Some OnCode
  | WVerb _ => Some OnCode
  | WPad _ => Some (gapped s)
  | WComment _ | WBreak => Some Elsewhere
  end.
Definition walk_step (s : spot) (x : step) : option spot :=
  match x with
  | SWord w => walk_word s w
  | SSpace => Some (gapped s)
  | SLine _ => Some Elsewhere
  end.
Definition walk_op (s : spot) (x : op) : option spot :=
  match x with OStep x => walk_step s x | OSuffix _ _ => Some s end.
Definition walk_piece (s : spot) (x : piece) : option spot :=
  match x with PWord w => walk_word s w | PSpace => Some (gapped s) | PNewline => Some Elsewhere end.
Fixpoint walk {A : Type} (f : spot -> A -> option spot) (s : spot) (l : list A) : option spot :=
  match l with
  | [] => Some s
  | x :: r => match f s x with Some s' => walk f s' r | None => None end
  end.
Lemma walk_app {A} (f : spot -> A -> option spot) a : forall b s,
  walk f s (a ++ b) = match walk f s a with Some s' => walk f s' b | None => None end.
Proof.
  induction a as [|x a IH]; intros b s; [reflexivity|]. cbn [app walk].
  destruct (f s x); [apply IH|reflexivity].
Qed.

(** Less is known of the line. *)
Definition below (a b : spot) : Prop := a = Elsewhere \/ a = b.
Lemma below_refl s : below s s.
Proof. right. reflexivity. Qed.
Lemma below_else s : below Elsewhere s.
Proof. left. reflexivity. Qed.
Lemma below_trans a b c : below a b -> below b c -> below a c.
Proof. intros [->| ->] H; [left; reflexivity|exact H]. Qed.
Definition monotone {A} (f : spot -> A -> option spot) : Prop :=
  forall x s t s', below s t -> f s x = Some s' -> exists t', f t x = Some t' /\ below s' t'.
Lemma gapped_below s t : below s t -> below (gapped s) (gapped t).
Proof. intros [->| ->]; [left|right]; reflexivity. Qed.
Lemma walk_word_mono : monotone walk_word.
Proof.
  intros w s t s' B H. destruct w as [k|c|n|e|]; cbn [walk_word] in *.
  - destruct (kind_eqb (t_kind k) ELSE_KW).
    + destruct s; try discriminate. destruct B as [B|<-]; [discriminate|]. eauto using below_refl.
    + eauto using below_refl.
  - injection H as <-. eauto using below_refl.
  - injection H as <-. eauto using gapped_below.
  - eauto using below_refl.
  - injection H as <-. eauto using below_refl.
Qed.
Lemma walk_step_mono : monotone walk_step.
Proof.
  intros [w| |e] s t s' B H; cbn [walk_step] in *; [exact (walk_word_mono w s t s' B H)| |];
    injection H as <-; eauto using gapped_below, below_refl.
Qed.
Lemma walk_op_mono : monotone walk_op.
Proof.
  intros [x|g c] s t s' B H; cbn [walk_op] in *; [exact (walk_step_mono x s t s' B H)|].
  injection H as <-. eauto.
Qed.
Lemma walk_piece_mono : monotone walk_piece.
Proof.
  intros [w| |] s t s' B H; cbn [walk_piece] in *; [exact (walk_word_mono w s t s' B H)| |];
    injection H as <-; eauto using gapped_below, below_refl.
Qed.
Lemma walk_mono {A} (f : spot -> A -> option spot) : monotone f -> forall l s t s',
  below s t -> walk f s l = Some s' -> exists t', walk f t l = Some t' /\ below s' t'.
Proof.
  intros M. induction l as [|x l IH]; intros s t s' B H; cbn [walk] in *.
  - injection H as <-. eauto.
  - destruct (f s x) as [s1|] eqn:E; [|discriminate].
    destruct (M x s t s1 B E) as [t1 [-> B1]]. exact (IH s1 t1 s' B1 H).
Qed.

(** * Documents *)

Definition carries (s : spot) (os : list op) (s' : spot) : Prop :=
  exists t, walk walk_op s os = Some t /\ below s' t.
Definition flow (s : spot) (d : doc) (s' : spot) : Prop :=
  forall m os, glay m d os -> carries s os s'.
Lemma carries_conseq s t a b os : below s t -> below b a -> carries s os a -> carries t os b.
Proof.
  intros B1 B2 [u [E B]]. destruct (walk_mono _ walk_op_mono os s t u B1 E) as [v [V W]].
  exists v. split; [exact V|]. exact (below_trans _ _ _ B2 (below_trans _ _ _ B W)).
Qed.
Lemma carries_app a x b y c : carries a x b -> carries b y c -> carries a (x ++ y) c.
Proof.
  intros [u [E B]] H. destruct (carries_conseq b u c c y B (below_refl c) H) as [v [V W]].
  exists v. rewrite walk_app, E. auto.
Qed.
Lemma carries_nil s : carries s [] s.
Proof. exists s. split; [reflexivity|apply below_refl]. Qed.
Lemma flow_conseq s t d a b : below s t -> below b a -> flow s d a -> flow t d b.
Proof. intros B1 B2 F m os H. exact (carries_conseq _ _ _ _ _ B1 B2 (F m os H)). Qed.
Lemma flow_entry s t d a : below s t -> flow s d a -> flow t d a.
Proof. intros B. apply flow_conseq; [exact B|apply below_refl]. Qed.
Lemma flow_exit s d a b : below b a -> flow s d a -> flow s d b.
Proof. intros B. apply flow_conseq; [apply below_refl|exact B]. Qed.
(** From anywhere, and nothing known afterwards. *)
Lemma flow_from s d a : flow Elsewhere d a -> flow s d a.
Proof. apply flow_entry, below_else. Qed.
Lemma flow_lose s d a : flow s d a -> flow s d Elsewhere.
Proof. apply flow_exit, below_else. Qed.
Lemma flow_nil s : flow s DNil s.
Proof. intros m os H. cbn [glay] in H. subst. apply carries_nil. Qed.
Lemma flow_expand s : flow s DExpandParent s.
Proof. intros m os H. cbn [glay] in H. subst. apply carries_nil. Qed.
Lemma flow_panic s a : flow s DPanic a.
Proof. intros m os []. Qed.
Lemma flow_suffix s g c : flow s (DSuffix g c) s.
Proof. intros m os H. cbn [glay] in H. subst. exists s. split; [reflexivity|apply below_refl]. Qed.
Lemma flow_cat s a t b u : flow s a t -> flow t b u -> flow s (DCat a b) u.
Proof. intros A B m os [x [y [X [Y ->]]]]. exact (carries_app _ _ _ _ _ (A m x X) (B m y Y)). Qed.
Lemma flow_space s : flow s DSpace (gapped s).
Proof. intros m os H. cbn [glay] in H. subst. eexists. split; [reflexivity|apply below_refl]. Qed.
Lemma flow_space_any s : flow s DSpace Elsewhere.
Proof. exact (flow_lose _ _ _ (flow_space s)). Qed.
Lemma flow_line l s : flow s (DLine l) Elsewhere.
Proof.
  intros m os H. destruct l, m; cbn [glay] in H; subst; eexists; (split; [reflexivity|apply below_else]).
Qed.
Lemma flow_break s : flow s (DWord WBreak) Elsewhere.
Proof. intros m os H. cbn [glay] in H. subst. eexists. split; [reflexivity|apply below_refl]. Qed.
Lemma flow_comment s c : flow s (DWord (WComment c)) Elsewhere.
Proof. intros m os H. cbn [glay] in H. subst. eexists. split; [reflexivity|apply below_refl]. Qed.
Lemma flow_verb s e : flow s (DWord (WVerb e)) OnCode.
Proof. intros m os H. cbn [glay] in H. subst. eexists. split; [reflexivity|apply below_refl]. Qed.
Lemma flow_spaces s n : flow s (write_spaces n) Elsewhere.
Proof.
  unfold write_spaces. destruct (0 <? n); [|exact (flow_lose _ _ _ (flow_nil s))].
  intros m os H. cbn [glay] in H. subst. eexists. split; [reflexivity|apply below_else].
Qed.
Lemma flow_group s e d a : flow s d a -> flow s (DGroup e d) a.
Proof. intros F m os [m' H]. exact (F m' os H). Qed.
Lemma flow_indent s d a : flow s d a -> flow s (indent d) a.
Proof. intros F m os H. exact (F m os (glay_indent _ _ _ H)). Qed.
Lemma flow_best s a b t : flow s a t -> flow s b t -> flow s (DBest a b) t.
Proof. intros A B m os [m' [H|H]]; [exact (A _ _ H)|exact (B _ _ H)]. Qed.
Lemma flow_remove_soft s d a : flow s d a -> flow s (remove_soft d) a.
Proof. intros F m os H. exact (F _ _ (glay_remove_soft _ _ _ H)). Qed.
Lemma flow_maybe_space b s : flow s (maybe_space b) Elsewhere.
Proof. destruct b; [apply flow_space_any|exact (flow_lose _ _ _ (flow_nil s))]. Qed.
Ltac sc g := apply flow_cat with g.
Lemma flow_between l s d : flow Elsewhere d Elsewhere ->
  flow s (if is_nil d then DNil else cat [DIndent (DCat (DLine l) d); DLine l]) Elsewhere.
Proof.
  intros F. destruct (is_nil d); [exact (flow_lose _ _ _ (flow_nil s))|]. cbn [cat].
  sc Elsewhere; [|sc Elsewhere; [apply flow_line|apply flow_nil]].
  assert (X : flow s (DCat (DLine l) d) Elsewhere) by (sc Elsewhere; [apply flow_line|exact F]).
  exact X.
Qed.
Lemma flow_block s d : flow Elsewhere d Elsewhere -> flow s (block_indent d) Elsewhere.
Proof. apply flow_between. Qed.
Lemma flow_soft s d : flow Elsewhere d Elsewhere -> flow s (soft_block_indent d) Elsewhere.
Proof. apply flow_between. Qed.
Lemma flow_soft_space s d : flow Elsewhere d Elsewhere -> flow s (soft_space_or_block_indent d) Elsewhere.
Proof. apply flow_between. Qed.
(** Without its line breaks, content is laid out flat. *)
Lemma norm_kind t : t_kind (norm_token t) = t_kind t.
Proof.
  unfold norm_token. destruct (kind_eqb (t_kind t) STRING_CONTENT) eqn:E; [|reflexivity].
  symmetry. apply kind_eqb_eq, E.
Qed.
Lemma flow_token s t : t_kind t <> ELSE_KW -> flow s (token_doc t) OnCode.
Proof.
  intros K m os H. cbn [token_doc glay] in H. subst. exists OnCode. split; [|apply below_refl].
  cbn [walk walk_op walk_step walk_word]. rewrite norm_kind.
  destruct (kind_eqb (t_kind t) ELSE_KW) eqn:E; [|reflexivity].
  apply kind_eqb_eq in E. contradiction.
Qed.
Lemma flow_else : flow AfterGap (token_doc tELSE) OnCode.
Proof. intros m os H. cbn in H. subst. eexists. split; [reflexivity|apply below_refl]. Qed.
Ltac tok := first [apply flow_token; discriminate
                  |apply (flow_lose _ _ OnCode), flow_token; discriminate].
Lemma flow_tokens s ts : ts <> [] -> Forall (fun t => t_kind t <> ELSE_KW) ts ->
  flow s (cat (map token_doc ts)) OnCode.
Proof.
  intros N F. revert s. induction F as [|t ts H F IH]; intros s; [contradiction|].
  cbn [map cat]. sc OnCode; [apply flow_token, H|]. destruct ts; [apply flow_nil|apply IH; discriminate].
Qed.

(** * Comments *)

Lemma flow_leading s cs : flow s (leading_comments cs) Elsewhere.
Proof.
  unfold leading_comments. revert s. induction cs as [|c cs IH]; intros s;
    [exact (flow_lose _ _ _ (flow_nil s))|]. cbn [map cat]. sc Elsewhere; [|apply IH].
  sc Elsewhere; [apply flow_comment|]. sc Elsewhere; [apply flow_line|apply flow_nil].
Qed.
Lemma flow_trailing s cs : flow s (trailing_comments cs) s.
Proof.
  unfold trailing_comments. generalize 0. induction cs as [|c cs IH]; intros n; [apply flow_nil|].
  cbn [trailing_from cat]. sc s; [apply flow_suffix|]. sc s; [apply flow_expand|].
  sc s; [apply IH|apply flow_nil].
Qed.
Lemma flow_dangling_content s cs : flow s (dangling_content cs) Elsewhere.
Proof.
  revert s. induction cs as [|c cs IH]; intros s; [exact (flow_lose _ _ _ (flow_nil s))|].
  destruct cs as [|d cs].
  - cbn [dangling_content cat]. sc Elsewhere; [apply flow_comment|].
    sc Elsewhere; [apply flow_line|apply flow_nil].
  - change (dangling_content (c :: d :: cs)) with
      (cat [ DWord (WComment (c_text c)); DLine LHard; dangling_content (d :: cs) ]).
    cbn [cat]. sc Elsewhere; [apply flow_comment|].
    sc Elsewhere; [apply flow_line|]. sc Elsewhere; [apply IH|apply flow_nil].
Qed.
Lemma flow_dangling_soft s cs : flow s (dangling_soft cs) Elsewhere.
Proof.
  unfold dangling_soft. destruct cs; [exact (flow_lose _ _ _ (flow_nil s))|].
  apply flow_group, flow_soft, flow_dangling_content.
Qed.
Lemma flow_dangling_block s cs : flow s (dangling_block cs) Elsewhere.
Proof.
  unfold dangling_block. destruct cs; [exact (flow_lose _ _ _ (flow_nil s))|].
  apply flow_block, flow_dangling_content.
Qed.
Lemma flow_verbatim s e : flow s (verbatim e) OnCode.
Proof.
  unfold verbatim. cbn [cat]. sc Elsewhere; [apply flow_leading|]. sc OnCode; [apply flow_verb|].
  sc OnCode; [apply flow_trailing|apply flow_nil].
Qed.

(** * Printing *)

Lemma walk_held s hs : exists t, walk walk_step s (held_steps hs) = Some t.
Proof.
  revert s. induction hs as [|[g c] hs IH]; intros s; [eexists; reflexivity|].
  change (held_steps ((g, c) :: hs)) with (gap_step g :: SWord (WComment c) :: held_steps hs).
  destruct g; cbn [gap_step walk walk_step walk_word]; apply IH.
Qed.
Lemma walk_unsuffix os : forall hs s t, walk walk_op s os = Some t ->
  exists u, walk walk_step s (unsuffix hs os) = Some u.
Proof.
  induction os as [|x os IH]; intros hs s t H; cbn [unsuffix]; [apply walk_held|].
  cbn [walk] in H. destruct x as [x|g c]; cbn [walk_op] in H; [|exact (IH _ _ _ H)].
  destruct (walk_step s x) as [s1|] eqn:E; [|discriminate].
  destruct x as [w| |e].
  - cbn [walk]. rewrite E. exact (IH _ _ _ H).
  - cbn [walk]. rewrite E. exact (IH _ _ _ H).
  - rewrite walk_app. destruct (walk_held s hs) as [v ->]. cbn [walk walk_step].
    cbn [walk_step] in E. injection E as <-. exact (IH _ _ _ H).
Qed.
(** What the printer has written and holds pending. *)
Definition inv (s : spot) (st : pstate) (q : spot) : Prop :=
  match s with
  | Elsewhere => True
  | OnCode => p_line st = true /\ q = OnCode /\ p_space st = false
  | AfterGap => p_line st = true /\ (q = AfterGap \/ (q = OnCode /\ p_space st = true))
  end.
Lemma step_inv s st q x s' : inv s st q -> walk_step s x = Some s' ->
  exists q', walk walk_piece q (fst (print_step st x)) = Some q' /\ inv s' (snd (print_step st x)) q'.
Proof.
  intros I H. destruct x as [w| |e].
  - assert (G : walk walk_piece q (if p_space st then [PSpace] else []) =
      Some (if p_space st then gapped q else q)) by (destruct (p_space st); reflexivity).
    cbn [print_step fst snd]. rewrite walk_app, G. clear G.
    set (q1 := if p_space st then gapped q else q).
    assert (J : s = AfterGap -> q1 = AfterGap).
    { intros ->. destruct I as [_ [->|[-> E]]]; subst q1; [destruct (p_space st); reflexivity|].
      rewrite E. reflexivity. }
    assert (K : s = OnCode -> q1 = OnCode).
    { intros ->. destruct I as [_ [-> E]]. subst q1. rewrite E. reflexivity. }
    cbn [walk_step] in H. destruct w as [t|c|n|v|]; cbn [walk walk_piece walk_word] in *.
    + destruct (kind_eqb (t_kind t) ELSE_KW).
      * destruct s; try discriminate. injection H as <-. rewrite (J eq_refl).
        eexists. split; [reflexivity|]. repeat split.
      * injection H as <-. eexists. split; [reflexivity|]. repeat split.
    + injection H as <-. eexists. split; [reflexivity|exact Logic.I].
    + injection H as <-. eexists. split; [reflexivity|]. destruct s; [exact Logic.I| |].
      * rewrite (K eq_refl). split; [reflexivity|left; reflexivity].
      * rewrite (J eq_refl). split; [reflexivity|left; reflexivity].
    + injection H as <-. eexists. split; [reflexivity|]. repeat split.
    + injection H as <-. eexists. split; [reflexivity|exact Logic.I].
  - cbn [walk_step] in H. injection H as <-. exists q. split; [reflexivity|].
    cbn [print_step snd]. destruct s; [exact Logic.I| |].
    + destruct I as [A [B C]]. split; [exact A|]. right. split; [exact B|].
      cbn [p_space]. rewrite A. apply orb_true_r.
    + destruct I as [A [B|[B C]]]; (split; [exact A|]); [left; exact B|right].
      split; [exact B|]. cbn [p_space]. rewrite C. reflexivity.
  - cbn [walk_step] in H. injection H as <-. cbn [print_step].
    destruct (e && _), (p_line st); cbn [fst snd app walk walk_piece]; eexists;
      (split; [reflexivity|exact Logic.I]).
Qed.
Lemma steps_walk ss : forall s st q s', inv s st q -> walk walk_step s ss = Some s' ->
  exists q', walk walk_piece q (fst (print_steps st ss)) = Some q'.
Proof.
  induction ss as [|x ss IH]; intros s st q s' I H; [eexists; reflexivity|].
  cbn [walk] in H. destruct (walk_step s x) as [s1|] eqn:E; [|discriminate].
  destruct (step_inv s st q x s1 I E) as [q1 [W J]]. cbn [print_steps].
  destruct (print_step st x) as [o1 st1]. cbn [fst snd] in W, J.
  destruct (IH s1 st1 q1 s' J H) as [q2 W2]. destruct (print_steps st1 ss) as [o2 st2].
  cbn [fst] in *. rewrite walk_app, W. eauto.
Qed.
Lemma run_walk os s : carries Elsewhere os s ->
  exists t, walk walk_piece Elsewhere (run os) = Some t.
Proof.
  intros [t [E _]]. destruct (walk_unsuffix os [] _ _ E) as [u W].
  exact (steps_walk _ _ _ _ _ (Logic.I : inv Elsewhere pstart Elsewhere) W).
Qed.
(** A printed cell, with its blanks as text. *)
Lemma raw_walk ps : forall s, walk walk_op s (word_ops (map raw_word ps)) = walk walk_piece s ps.
Proof.
  induction ps as [|x ps IH]; intros s; [reflexivity|].
  change (word_ops (map raw_word (x :: ps))) with
    (OStep (SWord (raw_word x)) :: word_ops (map raw_word ps)).
  cbn [walk]. replace (walk_op s (OStep (SWord (raw_word x)))) with (walk_piece s x)
    by (destruct x; reflexivity).
  destruct (walk_piece s x); [apply IH|reflexivity].
Qed.
Lemma flow_cell s os ps a : carries Elsewhere os a -> ps = run os -> flow s (raw_pieces ps) Elsewhere.
Proof.
  intros C -> . apply flow_from. intros m os' H. rewrite (glay_raw _ _ _ H).
  destruct (run_walk os a C) as [t W]. exists t. rewrite raw_walk. split; [exact W|apply below_else].
Qed.

(** What the walk says of the pieces. *)
Definition seen (s : spot) (pre : list piece) : Prop :=
  match s with
  | Elsewhere => True
  | OnCode => exists b w, pre = b ++ [PWord w] /\ code_word w
  | AfterGap => exists b w g, pre = b ++ PWord w :: g /\ code_word w /\ g <> [] /\ Forall blank g
  end.
Lemma seen_gap s pre p : seen s pre -> blank p -> seen (gapped s) (pre ++ [p]).
Proof.
  intros H B. destruct s; [exact I| |].
  - destruct H as [b [w [-> C]]]. exists b, w, [p]. rewrite <- app_assoc.
    split; [reflexivity|]. split; [exact C|]. split; [discriminate|]. constructor; [exact B|constructor].
  - destruct H as [b [w [g [-> [C [N F]]]]]]. exists b, w, (g ++ [p]). rewrite <- app_assoc.
    split; [reflexivity|]. split; [exact C|]. split; [destruct g; discriminate|].
    apply Forall_app. split; [exact F|]. constructor; [exact B|constructor].
Qed.
Lemma seen_piece s pre p s' : seen s pre -> walk_piece s p = Some s' -> seen s' (pre ++ [p]).
Proof.
  intros H W. destruct p as [w| |]; cbn [walk_piece] in W.
  - destruct w as [t|c|n|e|]; cbn [walk_word] in W.
    + destruct (kind_eqb (t_kind t) ELSE_KW); [destruct s; try discriminate|];
        injection W as <-; exists pre, (WTok t); split; reflexivity || exact I.
    + injection W as <-. exact I.
    + injection W as <-. apply seen_gap; [exact H|right; exists n; reflexivity].
    + injection W as <-. exists pre, (WVerb e). split; [reflexivity|exact I].
    + injection W as <-. exact I.
  - injection W as <-. apply seen_gap; [exact H|left; reflexivity].
  - injection W as <-. exact I.
Qed.
Lemma seen_all ps : forall s pre s', seen s pre -> walk walk_piece s ps = Some s' -> seen s' (pre ++ ps).
Proof.
  induction ps as [|p ps IH]; intros s pre s' H W; cbn [walk] in W.
  - injection W as <-. rewrite app_nil_r. exact H.
  - destruct (walk_piece s p) as [s1|] eqn:E; [|discriminate].
    change (p :: ps) with ([p] ++ ps). rewrite app_assoc. exact (IH s1 _ s' (seen_piece _ _ _ _ H E) W).
Qed.
Lemma walk_follows out s : walk walk_piece Elsewhere out = Some s -> else_follows_code out.
Proof.
  intros W pre t post -> K. rewrite walk_app in W.
  destruct (walk walk_piece Elsewhere pre) as [s1|] eqn:E; [|discriminate].
  pose proof (seen_all pre Elsewhere [] s1 I E) as S. cbn [app] in S.
  cbn [walk walk_piece walk_word] in W. rewrite K, (proj2 (kind_eqb_eq _ _) eq_refl) in W.
  destruct s1; try discriminate. exact S.
Qed.

(** * The rules *)

Lemma flow_braces s d : flow Elsewhere d OnCode -> flow s (in_braces d) OnCode.
Proof.
  intros S. unfold in_braces. cbn [cat]. sc OnCode; [tok|].
  sc Elsewhere; [apply flow_block; exact (flow_lose _ _ _ S)|]. sc OnCode; [tok|apply flow_nil].
Qed.
Lemma flow_braces_if_broken s d : flow Elsewhere d OnCode -> flow s (in_braces_if_broken d) OnCode.
Proof.
  intros S [|] os H.
  - unfold in_braces_if_broken, soft_block_indent in H. cbn [cat] in H.
    destruct H as [x [y [X [[u [v [U [[p [q [P [Q ->]]]] ->]]]] ->]]]].
    cbn [glay] in X, P, Q. subst. rewrite app_nil_r. cbn [app].
    destruct (is_nil d) eqn:E.
    + cbn [glay] in U. subst u. apply (flow_from s) in S. apply (S Flat).
      apply is_nil_glay_nil, E.
    + cbn [cat glay] in U.
      destruct U as [a [b [[c [e [C [E' ->]]]] [[f [g [F [G ->]]]] ->]]]]. subst.
      rewrite !app_nil_r. cbn [app]. exact (flow_from s _ _ S Flat _ E').
  - assert (X : flow s (cat [ token_doc tLCURLY; soft_block_indent d; token_doc tRCURLY ]) OnCode).
    { cbn [cat]. sc OnCode; [tok|]. sc Elsewhere; [apply flow_soft; exact (flow_lose _ _ _ S)|].
      sc OnCode; [tok|apply flow_nil]. }
    exact (X Expanded os H).
Qed.
Lemma flow_loop_body s b d : flow Elsewhere d OnCode -> flow s (loop_body b d) OnCode.
Proof. intros S. unfold loop_body. destruct (is_braced b); [apply flow_from, S|apply flow_braces, S]. Qed.
Lemma flow_function_body s b d : flow Elsewhere d OnCode -> flow s (function_body b d) OnCode.
Proof.
  intros S. unfold function_body. destruct (is_braced b); [apply flow_from, S|].
  destruct (n_newline _); [apply flow_braces, S|apply flow_braces_if_broken, S].
Qed.
Lemma flow_if_body s a f b d : flow Elsewhere d OnCode -> flow s (if_body a f b d) OnCode.
Proof.
  intros S. unfold if_body. destruct (is_braced b); [apply flow_from, S|].
  destruct (is_if b && a); [apply flow_from, S|].
  destruct f; [apply flow_braces, S|apply flow_braces_if_broken, S].
Qed.

(** Lists. *)
Definition entry_ok (x : expr * doc) : Prop := flow Elsewhere (snd x) Elsewhere.
Lemma flow_done s : flow s DNil Elsewhere.
Proof. exact (flow_lose _ _ _ (flow_nil s)). Qed.
Lemma flow_entry_break s double n : flow s (entry_break double n) Elsewhere.
Proof.
  unfold entry_break. destruct double.
  - destruct (2 <? n); [|destruct (n =? 2); apply flow_line].
    cbn [cat]. sc Elsewhere; [apply flow_line|]. sc Elsewhere; [apply flow_break|apply flow_nil].
  - destruct (1 <? n); apply flow_line.
Qed.
Lemma flow_entries s double l : Forall entry_ok l -> forall first,
  flow s (join_entries double first l) Elsewhere.
Proof.
  intros F first. apply flow_from. revert first.
  induction F as [|[e d] l H F IH]; intros first; [apply flow_done|]. cbn [join_entries cat].
  sc Elsewhere; [destruct first; [apply flow_nil|apply flow_entry_break]|]. sc Elsewhere; [exact H|].
  sc Elsewhere; [apply IH|apply flow_nil].
Qed.
Lemma flow_params s l : Forall entry_ok l -> forall first, flow s (join_params first l) Elsewhere.
Proof.
  intros F first. apply flow_from. revert first.
  induction F as [|[e d] l H F IH]; intros first; [apply flow_done|]. cbn [join_params cat].
  sc Elsewhere; [destruct first; [apply flow_nil|apply flow_line]|].
  sc Elsewhere; [exact H|]. sc Elsewhere; [destruct l; [apply flow_nil|tok]|].
  sc Elsewhere; [apply IH|apply flow_nil].
Qed.
Lemma entries_map f (l : list expr) : (forall x, In x l -> flow Elsewhere (f x) Elsewhere) ->
  Forall entry_ok (map (fun x => (x, f x)) l).
Proof. intros H. apply Forall_map, Forall_forall. exact H. Qed.

(** Arguments. *)
Definition arg_ok (a : ainfo) : Prop :=
  flow Elsewhere (ai_doc a) Elsewhere /\
  (forall d, ai_function a = Some d -> flow Elsewhere d Elsewhere).
Definition sep_ok (a : ainfo * bool) : Prop := arg_ok (fst a).
Lemma l_flow s k : flow s (token_doc (l_token k)) Elsewhere.
Proof. destruct k; tok. Qed.
Lemma r_flow s k : flow s (token_doc (r_token k)) OnCode.
Proof. destruct k; tok. Qed.
Lemma flow_arg a : sep_ok a -> flow Elsewhere (arg_doc a) Elsewhere.
Proof.
  intros [H _]. unfold arg_doc. sc Elsewhere; [exact H|]. destruct (snd a); [tok|apply flow_nil].
Qed.
Lemma take_holes_ok l : Forall sep_ok l -> Forall sep_ok (take_holes l).
Proof.
  induction 1 as [|a l H F IH]; [constructor|]. cbn [take_holes].
  destruct (leading_hole a); [constructor; assumption|constructor].
Qed.
Lemma flow_holes l : Forall sep_ok l -> flow Elsewhere (holes_doc l) Elsewhere.
Proof.
  unfold holes_doc. induction 1 as [|a l H F IH]; [apply flow_nil|]. cbn [map cat].
  sc Elsewhere; [apply flow_arg, H|exact IH].
Qed.
Lemma drop_holes_ok l : Forall sep_ok l -> Forall sep_ok (drop_holes l).
Proof.
  induction 1 as [|a l H F IH]; [constructor|]. cbn [drop_holes].
  destruct (leading_hole a); [exact IH|constructor; assumption].
Qed.
Lemma flow_broken_args l : Forall sep_ok l -> forall first,
  flow Elsewhere (broken_args first l) Elsewhere.
Proof.
  induction 1 as [|a l H F IH]; intros first; [apply flow_nil|]. cbn [broken_args cat].
  sc Elsewhere; [destruct first; [apply flow_nil|apply flow_line]|].
  sc Elsewhere; [apply flow_arg, H|]. sc Elsewhere; [apply IH|apply flow_nil].
Qed.
Lemma flow_broken_out s k rc l expand : Forall sep_ok l ->
  flow s (all_broken_out (token_doc (l_token k)) (token_doc (r_token k)) rc
    (take_holes l) (drop_holes l) expand) OnCode.
Proof.
  intros F. unfold all_broken_out. apply flow_group. cbn [cat].
  sc Elsewhere; [apply l_flow|]. sc Elsewhere; [apply flow_holes, take_holes_ok, F|].
  sc Elsewhere; [apply flow_maybe_space|].
  pose proof (flow_broken_args _ (drop_holes_ok _ F) true) as B.
  sc Elsewhere; [destruct (negb expand && _); [exact B|apply flow_soft, B]|].
  sc OnCode; [apply r_flow|apply flow_nil].
Qed.
Lemma flow_grouped_last only a : sep_ok a -> flow Elsewhere (grouped_last only a) Elsewhere.
Proof.
  intros H. unfold grouped_last. pose proof H as [_ Hf]. destruct (ai_function (fst a)) as [d|]; [|apply flow_arg, H].
  destruct only; [apply flow_arg, H|]. sc Elsewhere; [exact (Hf d eq_refl)|].
  destruct (snd a); [tok|apply flow_nil].
Qed.
Lemma flow_join_grouped only w l : (forall d, flow Elsewhere d Elsewhere -> flow Elsewhere (w d) Elsewhere) ->
  Forall sep_ok l -> forall first, flow Elsewhere (join_grouped only first w l) Elsewhere.
Proof.
  intros W F. induction F as [|a l H F IH]; intros first; [apply flow_nil|].
  cbn [join_grouped cat]. sc Elsewhere; [destruct first; [apply flow_nil|apply flow_line]|].
  sc Elsewhere; [destruct l; [apply W, flow_grouped_last, H|apply flow_arg, H]|].
  sc Elsewhere; [apply IH|apply flow_nil].
Qed.
Lemma flow_write_grouped s k rc l : Forall sep_ok l ->
  flow s (write_grouped (token_doc (l_token k)) (token_doc (r_token k)) rc
    (take_holes l) (drop_holes l)) OnCode.
Proof.
  intros F. unfold write_grouped. pose proof (fun e => flow_broken_out s k rc l e F) as B.
  destruct (last_opt _); [|apply B]. cbv zeta. destruct (existsb _ _); [apply B|].
  match goal with |- flow _ (if ?b then all_broken_out _ _ _ _ _ _ else _) _ => destruct b end; [apply B|].
  assert (V : forall w, (forall d, flow Elsewhere d Elsewhere -> flow Elsewhere (w d) Elsewhere) ->
    flow s (cat [ token_doc (l_token k); holes_doc (take_holes l);
      maybe_space (FmtModel.nonempty (take_holes l) && FmtModel.nonempty (drop_holes l));
      join_grouped (List.length (drop_holes l) =? 1)%nat true w (drop_holes l); token_doc (r_token k) ])
      OnCode).
  { intros w W. cbn [cat]. sc Elsewhere; [apply l_flow|].
    sc Elsewhere; [apply flow_holes, take_holes_ok, F|].
    sc Elsewhere; [apply flow_maybe_space|].
    sc Elsewhere; [exact (flow_join_grouped _ w _ W (drop_holes_ok _ F) true)|].
    sc OnCode; [apply r_flow|apply flow_nil]. }
  assert (V1 := V (group true) (fun d => flow_group _ true d _)).
  destruct (will_break _).
  - sc s; [apply flow_expand|]. apply flow_best; [exact V1|apply B].
  - apply flow_best; [apply V; intros d S; exact S|]. apply flow_best; [exact V1|apply B].
Qed.
Lemma with_seps_ok l : Forall arg_ok l -> Forall sep_ok (with_seps l).
Proof.
  intros F. apply Forall_forall. intros a I. apply in_with_seps in I.
  rewrite Forall_forall in F. exact (F _ I).
Qed.
Lemma flow_call_like s o n k rc infos : Forall arg_ok infos ->
  flow s (rule_call_like o n k rc infos) OnCode.
Proof.
  intros F. unfold rule_call_like. pose proof (with_seps_ok _ F) as Fs.
  destruct infos as [|i0 infos0] eqn:E.
  - cbn [cat]. sc Elsewhere; [apply l_flow|]. sc Elsewhere; [apply flow_dangling_soft|].
    sc OnCode; [apply r_flow|apply flow_nil].
  - rewrite <- E in *. clear E i0 infos0.
    destruct (match k with KCall => _ | _ => _ end).
    + cbn [cat]. sc Elsewhere; [apply l_flow|]. sc Elsewhere; [|sc OnCode; [apply r_flow|apply flow_nil]].
      revert Fs. generalize (with_seps infos). intros l Fs.
      enough (X : forall first : bool, flow Elsewhere
        ((fix join first (l : list (ainfo * bool)) :=
               match l with
               | [] => DNil
               | a :: r => cat [ (if first : bool then DNil else DSpace); arg_doc a; join false r ]
               end) first l) Elsewhere) by exact (X true).
      induction Fs as [|a r H Fs IH]; intros first; [apply flow_nil|].
      cbn [cat]. sc Elsewhere; [destruct first; [apply flow_nil|apply flow_space_any]|].
      sc Elsewhere; [apply flow_arg, H|]. sc Elsewhere; [exact (IH false)|apply flow_nil].
    + cbv zeta.
      match goal with |- flow _ (if ?b then _ else _) _ => destruct b end; [apply flow_broken_out, Fs|].
      match goal with |- flow _ (if ?b then _ else _) _ => destruct b end; [apply flow_broken_out, Fs|].
      match goal with |- flow _ (if ?b then _ else _) _ => destruct b end;
        [apply flow_write_grouped, Fs|apply flow_broken_out, Fs].
Qed.

(** Tables. *)
Section Tables.
Variable pc : doc -> option (list piece).
Hypothesis Cp : cell_printer pc.
Definition field_ok (a : ainfo) : Prop :=
  arg_named (ai_node a) = false -> flow Elsewhere (ai_fields a) Elsewhere.
Definition cell_ok (c : cell ainfo) : Prop :=
  arg_ok (ce_arg _ c) /\ field_ok (ce_arg _ c) /\ arg_named (ai_node (ce_arg _ c)) = false /\
  forall ps, ce_kind _ c = Other ps -> cell_text pc (ce_arg _ c) = Some ps.
Lemma flow_write_cell cs j c : cell_ok c ->
  flow Elsewhere (write_cell ainfo own_lead own_trail ai_doc (token_doc tCOMMA) cs j c) Elsewhere.
Proof.
  intros [A [F [N K]]]. specialize (F N). unfold write_cell. destruct (cell_padding _ _) as [lp rp].
  cbn [cat]. sc Elsewhere; [apply flow_spaces|]. sc Elsewhere.
  - destruct (ce_kind _ c) as [iw fw|ps]; [exact (proj1 A)|].
    destruct (cell_text_prints pc _ _ Cp (K ps eq_refl)) as [os [G ->]].
    sc Elsewhere; [apply flow_leading|]. sc Elsewhere; [exact (flow_cell _ os _ _ (F _ _ G) eq_refl)|].
    sc Elsewhere; [apply flow_trailing|apply flow_nil].
  - sc Elsewhere; [destruct (ce_sep _ c); [apply flow_spaces|apply flow_nil]|].
    sc Elsewhere; [|sc Elsewhere; [apply flow_space_any|apply flow_nil]].
    destruct (ce_sep _ c); [|apply flow_nil]. sc Elsewhere; [apply flow_space_any|].
    sc Elsewhere; [tok|apply flow_nil].
Qed.
Lemma flow_write_cells cs row : Forall cell_ok row -> forall j,
  flow Elsewhere (write_cells ainfo own_lead own_trail ai_doc (token_doc tCOMMA) cs j row) Elsewhere.
Proof.
  induction 1 as [|c row H Fr IH]; intros j; [apply flow_nil|]. cbn [write_cells].
  sc Elsewhere; [apply flow_write_cell, H|apply IH].
Qed.
Lemma flow_write_rows cs rs : Forall (Forall cell_ok) rs -> forall first,
  flow Elsewhere (write_rows ainfo ai_node own_lead own_trail ai_doc (token_doc tCOMMA) cs first rs) Elsewhere.
Proof.
  induction 1 as [|row rs H F IH]; intros first; [apply flow_nil|]. cbn [write_rows cat].
  sc Elsewhere; [destruct first; [apply flow_nil|]; destruct row; [apply flow_nil|apply flow_line]|].
  sc Elsewhere; [apply flow_write_cells, H|]. sc Elsewhere; [apply IH|apply flow_nil].
Qed.
Lemma flow_write_remaining l : Forall sep_ok l ->
  flow Elsewhere (write_remaining ainfo ai_node ai_doc (token_doc tCOMMA) l) Elsewhere.
Proof.
  intros F. unfold write_remaining. destruct l as [|a l]; [apply flow_nil|].
  sc Elsewhere; [apply flow_line|].
  induction F as [|[b sep] r H F IH]; [apply flow_nil|]. cbn [map cat].
  sc Elsewhere; [|exact IH]. sc Elsewhere; [apply flow_line|].
  sc Elsewhere; [exact (proj1 H)|]. sc Elsewhere; [destruct sep; [tok|apply flow_nil]|apply flow_nil].
Qed.
Lemma flow_table s t infos k :
  build_table ainfo ai_node (cell_text pc) (with_seps infos) = Some t ->
  Forall arg_ok infos -> Forall field_ok infos ->
  flow s (write_table ainfo ai_node own_lead own_trail ai_doc (token_doc tCOMMA)
    (token_doc (l_token k)) (token_doc (r_token k)) t) OnCode.
Proof.
  intros B F Ff. unfold build_table in B. apply build_loop_spec in B; [|intros c []]. destruct B as [E C].
  cbn [List.concat app map] in E.
  assert (X : Forall (Forall cell_ok) (rows _ t) /\ Forall sep_ok (remaining _ t)).
  { assert (In1 : forall a, In a (with_seps infos) -> arg_ok (fst a) /\ field_ok (fst a)).
    { intros a I. apply in_with_seps in I. rewrite Forall_forall in F, Ff. auto. }
    rewrite <- E in In1. split.
    - apply Forall_forall. intros row Ir. apply Forall_forall. intros c Ic.
      assert (Icc : In c (List.concat (rows _ t))) by (apply in_concat; eauto).
      destruct (C c Icc) as [C1 C2]. destruct (In1 (cell_arg c)) as [A1 A2].
      { apply in_or_app. left. apply in_map, Icc. }
      split; [exact A1|]. split; [exact A2|]. split; assumption.
    - apply Forall_forall. intros a I. apply In1. apply in_or_app. right. exact I. }
  destruct X as [X1 X2]. unfold write_table. apply flow_group. cbn [cat].
  sc Elsewhere; [apply l_flow|]. sc Elsewhere; [|sc OnCode; [apply r_flow|apply flow_nil]].
  apply flow_soft. sc Elsewhere; [apply flow_write_rows, X1|apply flow_write_remaining, X2].
Qed.
End Tables.

(** * The formatter *)

Definition before (s : sort) : spot := match s with SoElse => AfterGap | _ => Elsewhere end.
Definition after (s : sort) : spot := match s with SoArg => Elsewhere | _ => OnCode end.

Section Formatter.
Variable o : format_options.
Variable pc : doc -> option (list piece).
Hypothesis Cp : cell_printer pc.
Notation ef := (everywhere else_free).

Lemma flow_to_after s d e : flow s d OnCode -> flow s d (after (sort_of e)).
Proof. intros F. destruct (sort_of e); try exact F. exact (flow_lose _ _ _ F). Qed.
Lemma flow_node anc e fields :
  (sort_of e = SoElse -> n_lead (notes_of e) = []) ->
  flow (before (sort_of e)) fields (after (sort_of e)) ->
  flow (before (sort_of e)) (node_rule o anc e fields DNil) (after (sort_of e)).
Proof.
  intros L F. unfold node_rule. destruct (suppressed o anc e).
  - apply flow_to_after, flow_verbatim.
  - cbn [cat]. sc (before (sort_of e)).
    + destruct (sort_of e) eqn:So; try apply flow_leading.
      rewrite (L eq_refl). apply flow_nil.
    + sc (after (sort_of e)); [exact F|]. sc (after (sort_of e)); [apply flow_nil|].
      sc (after (sort_of e)); [apply flow_trailing|apply flow_nil].
Qed.
Lemma flow_node_soft anc e fields : n_dang (notes_of e) = [] ->
  (sort_of e = SoElse -> n_lead (notes_of e) = []) ->
  flow (before (sort_of e)) fields (after (sort_of e)) ->
  flow (before (sort_of e)) (node_rule_soft o anc e fields) (after (sort_of e)).
Proof. intros D. unfold node_rule_soft. rewrite D. apply flow_node. Qed.

Definition flows (e : expr) : Prop :=
  forall anc fo, flow (before (sort_of e)) (fmt o pc anc fo e) (after (sort_of e)).
Lemma flow_chain_piece s p : t_kind (tp_op p) <> ELSE_KW -> flow Elsewhere (tp_doc p) OnCode ->
  flow s (chain_piece p) OnCode.
Proof.
  intros O D. unfold chain_piece. cbn [cat]. sc Elsewhere.
  - destruct (tp_enclosing p); [|apply flow_done]. destruct (_ ++ _); [apply flow_done|apply flow_panic].
  - sc Elsewhere; [apply flow_space_any|]. sc OnCode; [apply flow_token, O|].
    sc Elsewhere; [apply flow_line|]. sc OnCode; [exact D|]. sc OnCode; [|apply flow_nil].
    destruct (tp_enclosing p); [apply flow_trailing|apply flow_nil].
Qed.
Definition piece_ok (p : tail_piece) : Prop := forall s, flow s (chain_piece p) OnCode.
Lemma flow_spine N : (forall x, (esize x < N)%nat -> shaped x -> ef x -> flows x) ->
  forall l, (esize l < N)%nat -> sort_of l = SoExpr -> shaped l -> ef l ->
  forall anc dl tail, spine o pc anc l = (dl, tail) ->
  flow Elsewhere dl OnCode /\ Forall piece_ok tail.
Proof.
  intros IH.
  assert (Stop : forall l anc dl tail, (esize l < N)%nat -> sort_of l = SoExpr -> shaped l -> ef l ->
    (fmt o pc anc fo0 l, []) = (dl, tail) ->
    flow Elsewhere dl OnCode /\ Forall piece_ok tail).
  { intros l anc dl tail Sz So Sh Ev E. injection E as <- <-. split; [|constructor].
    pose proof (IH l Sz Sh Ev anc fo0) as H. rewrite So in H. exact H. }
  induction l as [| | n l op r IHl IHr| | | | | | | | | | | | | | | | |] using expr_ind';
    intros Sz So Sh Ev anc dl tail Sp; try exact (Stop _ _ _ _ Sz So Sh Ev Sp).
  cbn [spine] in Sp. destruct (is_chain_op op) eqn:EC; [|exact (Stop _ _ _ _ Sz So Sh Ev Sp)].
  destruct (spine o pc (FBinary op :: anc) l) as [dl' tail'] eqn:ES. injection Sp as <- <-.
  cbn [esize] in Sz. destruct Ev as [[Tk _] [El Er]]. destruct Sh as [[Sl Shl] [Sr Shr]].
  destruct (IHl ltac:(lia) Sl Shl El (FBinary op :: anc) dl' tail' ES) as [V1 V2].
  split; [exact V1|]. apply Forall_app. split; [exact V2|]. constructor; [|constructor].
  intros s. apply flow_chain_piece; cbn [tp_op tp_doc].
  - inversion Tk; assumption.
  - pose proof (IH r ltac:(lia) Shr Er (FBinary op :: anc) fo0) as H. rewrite Sr in H. exact H.
Qed.
Lemma flow_pieces l : Forall piece_ok l -> flow OnCode (cat (map chain_piece l)) OnCode.
Proof. induction 1 as [|p l H F IH]; [apply flow_nil|]. sc OnCode; [apply H|exact IH]. Qed.
Lemma restyle_kind anc op : t_kind op <> ELSE_KW -> t_kind (restyle o anc op) <> ELSE_KW.
Proof.
  intros S. unfold restyle. destruct (kind_eqb (t_kind op) EQUAL);
    [destruct (o_assignment_style o)|destruct (kind_eqb (t_kind op) ASSIGN);
      [destruct (o_assignment_style o); [|destruct (can_normalize_to_equal anc)|]|]];
    try exact S; discriminate.
Qed.

Lemma fmt_flow : forall N e, (esize e < N)%nat -> shaped e -> ef e -> flows e.
Proof.
  induction N as [|N IH]; intros e Sz Sh Ev anc fo; [lia|].
  assert (Ch : forall x, (esize x < esize e)%nat -> sort_of x = SoExpr /\ shaped x -> ef x ->
    forall anc fo, flow Elsewhere (fmt o pc anc fo x) OnCode).
  { intros x Sx [So Shx] Ex anc' fo'. pose proof (IH x ltac:(lia) Shx Ex anc' fo') as H.
    rewrite So in H. exact H. }
  assert (Cl : forall x, (esize x < esize e)%nat -> sort_of x = SoExpr /\ shaped x -> ef x ->
    forall anc fo, flow Elsewhere (fmt o pc anc fo x) Elsewhere).
  { intros x Sx S Ex anc' fo'. exact (flow_lose _ _ _ (Ch x Sx S Ex anc' fo')). }
  assert (Cs : forall s x, (esize x < esize e)%nat -> sort_of x = s /\ shaped x -> ef x ->
    forall anc fo, flow (before s) (fmt o pc anc fo x) (after s)).
  { intros s x Sx [So Shx] Ex anc' fo'. pose proof (IH x ltac:(lia) Shx Ex anc' fo') as H.
    rewrite So in H. exact H. }
  pose proof (everywhere_self _ _ Ev) as [Tk Cm].
  destruct e as [n k ts|n op a|n l op r|n l op r|n l op r|n name ps b|n items|n a d|n v|n c t el
    |n nl a|n v s b|n c b|n b|n es|n b|n f args|n k rc items|n nm v sl|n nm];
    try change (fmt o pc anc fo (EArgs n k rc items)) with
      (node_rule o anc (EArgs n k rc items)
        (rule_args o pc (EArgs n k rc items) n k rc
           (match fo_table fo with Some t => t | None => false end)
           (map (arg_info o pc anc) items)) DNil);
    cbn [fmt];
    try (apply flow_node_soft; [first [exact Cm|exact (proj1 Cm)|exact (proj2 Cm)]
                               |first [discriminate|intros _; exact (proj1 Cm)]|]);
    try (apply flow_node; [discriminate|]);
    cbn [shaped] in Sh; cbn [esize] in Ch, Cl, Cs, Sz; destruct Ev as [Own Ev];
    cbn [own_tokens] in Tk; cbn [sort_of before after].
  - apply flow_tokens; assumption.
  - inversion Tk as [|? ? K _]; subst. unfold rule_unary. cbn [cat].
    sc OnCode; [apply flow_token, K|]. sc Elsewhere; [apply flow_maybe_space|].
    sc OnCode; [|apply flow_nil]. unfold has_comments. rewrite (proj2 Cm). cbn [andb].
    apply Ch; [lia|exact Sh|exact Ev].
  - inversion Tk as [|? ? K _]; subst. destruct Sh as [Sl Sr], Ev as [El Er].
    pose proof (Ch l ltac:(lia) Sl El) as L. pose proof (Ch r ltac:(lia) Sr Er) as R.
    destruct (classify (t_kind op)) eqn:EC.
    + apply flow_group. cbn [cat]. sc OnCode; [apply L|].
      sc Elsewhere; [apply (flow_lose _ _ OnCode), flow_token, K|]. sc OnCode; [apply R|apply flow_nil].
    + apply flow_group. cbn [cat]. sc OnCode; [apply L|]. sc Elsewhere; [apply flow_space_any|].
      sc Elsewhere; [apply (flow_lose _ _ OnCode), flow_token, restyle_kind, K|].
      sc OnCode; [|apply flow_nil].
      destruct (persistent_assignment o op r);
        [apply flow_indent; sc Elsewhere; [apply flow_line|apply R]|].
      sc Elsewhere; [apply flow_space_any|apply R].
    + change (flow Elsewhere
        (let '(dl, tail) := spine o pc (FBinary op :: anc) l in
         rule_chain o (fo_left fo) dl
           (tail ++ [ {| tp_op := op; tp_right := r;
              tp_doc := fmt o pc (FBinary op :: anc) fo0 r; tp_enclosing := None |} ])) OnCode).
      destruct (spine o pc (FBinary op :: anc) l) as [dl tail] eqn:ES.
      destruct (flow_spine N IH l ltac:(lia) (proj1 Sl) (proj2 Sl) El _ _ _ ES) as [V1 V2].
      assert (Z : flow OnCode (cat (map chain_piece (tail ++ [ {| tp_op := op; tp_right := r;
              tp_doc := fmt o pc (FBinary op :: anc) fo0 r; tp_enclosing := None |} ]))) OnCode).
      { apply flow_pieces, Forall_app. split; [exact V2|]. constructor; [|constructor].
        intros s. apply flow_chain_piece; [exact K|apply R]. }
      apply flow_group. sc OnCode; [exact V1|]. destruct (fo_left fo); [exact Z|apply flow_indent, Z].
    + apply flow_group. cbn [cat]. sc OnCode; [apply L|]. sc Elsewhere; [apply flow_space_any|].
      sc Elsewhere; [apply (flow_lose _ _ OnCode), flow_token, K|]. sc OnCode; [|apply flow_nil].
      apply flow_indent. sc Elsewhere; [apply flow_line|apply R].
    + apply flow_panic.
  - inversion Tk as [|? ? K _]; subst. destruct Sh as [Sl Sr], Ev as [El Er]. apply flow_group. cbn [cat].
    sc OnCode; [apply Ch; [lia|exact Sl|exact El]|].
    sc Elsewhere; [apply (flow_lose _ _ OnCode), flow_token, K|].
    sc OnCode; [apply Ch; [lia|exact Sr|exact Er]|apply flow_nil].
  - inversion Tk as [|? ? K _]; subst. destruct Sh as [Sl Sr], Ev as [El Er]. apply flow_group. cbn [cat].
    sc OnCode; [apply Ch; [lia|exact Sl|exact El]|].
    sc Elsewhere; [apply (flow_lose _ _ OnCode), flow_token, K|].
    sc OnCode; [apply Ch; [lia|exact Sr|exact Er]|apply flow_nil].
  - inversion Tk as [|? ? K _]; subst. destruct Sh as [Sp Sb], Ev as [Ep Eb]. apply flow_group. cbn [cat].
    sc Elsewhere; [apply (flow_lose _ _ OnCode), flow_token, K|].
    pose proof (Cs SoParams ps ltac:(lia) Sp Ep (FFunction false :: anc) fo0) as P.
    sc OnCode; [destruct (fo_grouped fo); [apply flow_remove_soft|]; exact P|].
    sc Elsewhere; [apply flow_space_any|]. sc OnCode; [|apply flow_nil].
    apply flow_function_body, Ch; [lia|exact Sb|exact Eb].
  - assert (It : Forall entry_ok (map (fun x => (x, fmt o pc (FParamList :: anc) fo0 x)) items)).
    { apply (entries_map (fun x => fmt o pc (FParamList :: anc) fo0 x)). intros x I.
      pose proof (esize_In x items I).
      exact (flow_lose _ _ _ (Cs SoParam x ltac:(lia) (all_of_In _ _ _ Sh I) (all_of_In _ _ _ Ev I) _ _)). }
    unfold rule_params. destruct items as [|x items].
    + cbn [map cat]. sc Elsewhere; [tok|]. sc Elsewhere; [apply flow_dangling_soft|].
      sc OnCode; [tok|apply flow_nil].
    + cbn [map] in *. apply flow_group. cbn [cat]. sc Elsewhere; [tok|].
      sc Elsewhere; [apply flow_soft, flow_params, It|].
      sc OnCode; [tok|apply flow_nil].
  - destruct Sh as [Sa Sd], Ev as [Ea Ed]. pose proof (Ch a ltac:(lia) Sa Ea (FParam :: anc) fo0) as A.
    unfold rule_param. destruct d as [d|]; [|exact A]. cbn [cat]. sc OnCode; [exact A|].
    sc Elsewhere; [apply flow_space_any|]. sc OnCode; [|apply flow_nil].
    exact (Cs SoDefault d ltac:(lia) Sd Ed _ _).
  - unfold rule_default. cbn [cat]. sc Elsewhere; [tok|]. sc Elsewhere; [apply flow_space_any|].
    sc OnCode; [apply Ch; [lia|exact Sh|exact Ev]|apply flow_nil].
  - destruct Sh as [Sc [St Se]], Ev as [Ec [Et Ee]]. apply flow_group. cbn [cat].
    sc Elsewhere; [tok|]. sc Elsewhere; [apply flow_space_any|]. sc Elsewhere; [tok|].
    sc Elsewhere; [apply flow_group, flow_soft, Cl; [lia|exact Sc|exact Ec]|].
    sc Elsewhere; [tok|]. sc Elsewhere; [apply flow_space_any|].
    sc OnCode; [apply flow_if_body, Ch; [lia|exact St|exact Et]|]. sc OnCode; [|apply flow_nil].
    destruct el as [x|]; [|apply flow_nil]. sc AfterGap; [exact (flow_space OnCode)|].
    exact (Cs SoElse x ltac:(lia) Se Ee _ _).
  - unfold rule_else. cbn [cat]. sc OnCode; [exact flow_else|]. sc Elsewhere; [apply flow_space_any|].
    sc OnCode; [apply flow_if_body, Ch; [lia|exact Sh|exact Ev]|apply flow_nil].
  - destruct Sh as [Sv [Ss Sb]], Ev as [E1 [E2 E3]]. apply flow_group. cbn [cat].
    sc Elsewhere; [tok|]. sc Elsewhere; [apply flow_space_any|]. sc Elsewhere; [tok|].
    sc OnCode; [apply Ch; [lia|exact Sv|exact E1]|]. sc Elsewhere; [apply flow_space_any|].
    sc Elsewhere; [tok|]. sc Elsewhere; [apply flow_space_any|].
    sc OnCode; [apply Ch; [lia|exact Ss|exact E2]|]. sc Elsewhere; [tok|].
    sc Elsewhere; [apply flow_space_any|]. sc OnCode; [|apply flow_nil].
    apply flow_loop_body, Ch; [lia|exact Sb|exact E3].
  - destruct Sh as [Sc Sb], Ev as [E1 E2]. apply flow_group. cbn [cat].
    sc Elsewhere; [tok|]. sc Elsewhere; [apply flow_space_any|]. sc Elsewhere; [tok|].
    sc Elsewhere; [apply flow_group, flow_soft, Cl; [lia|exact Sc|exact E1]|].
    sc Elsewhere; [tok|]. sc Elsewhere; [apply flow_space_any|].
    sc OnCode; [|apply flow_nil]. apply flow_loop_body, Ch; [lia|exact Sb|exact E2].
  - apply flow_group. cbn [cat]. sc Elsewhere; [tok|]. sc Elsewhere; [apply flow_space_any|].
    sc OnCode; [|apply flow_nil]. apply flow_loop_body, Ch; [lia|exact Sh|exact Ev].
  - assert (It : forall l, incl l es -> Forall entry_ok
      ((fix go (l : list expr) : list (expr * doc) :=
         match l with
         | [] => []
         | x :: r => (x, fmt o pc (FBracedList (is_last r) :: anc) fo0 x) :: go r
         end) l)).
    { induction l as [|x l IHl]; intros Il; [constructor|]. constructor.
      - assert (I : In x es) by (apply Il; left; reflexivity). pose proof (esize_In x es I).
        apply Cl; [lia|exact (all_of_In _ _ _ Sh I)|exact (all_of_In _ _ _ Ev I)].
      - apply IHl. intros y I. apply Il. right. exact I. }
    specialize (It es (incl_refl es)). unfold rule_braced.
    destruct (variant_of anc n es) eqn:V.
    + cbn [cat]. sc Elsewhere; [tok|]. sc OnCode; [tok|apply flow_nil].
    + cbn [cat]. sc Elsewhere; [tok|]. sc Elsewhere; [apply flow_dangling_block|].
      sc OnCode; [tok|apply flow_nil].
    + destruct (n_dang inner); [|apply flow_panic]. apply flow_group. cbn [cat].
      sc Elsewhere; [apply flow_leading|]. sc Elsewhere; [tok|]. sc Elsewhere; [tok|]. sc Elsewhere.
      * apply flow_soft_space. unfold variant_of in V.
        destruct es as [|e1 [|e2 es]]; try (destruct (n_dang n); discriminate);
          [|destruct e1 as [| | | | | | | | | | | | | |n1 l1| | | | |]; try discriminate;
            destruct l1 as [|[] [|]]; discriminate].
        destruct e1 as [| | | | | | | | | | | | | |n1 l1| | | | |]; try discriminate.
        destruct l1 as [|x [|]]; try discriminate; [|destruct x; discriminate].
        destruct Sh as [[_ [Sx _]] _], Ev as [[_ [Ex _]] _].
        apply Cl; [cbn; lia|exact Sx|exact Ex].
      * sc Elsewhere; [tok|]. sc OnCode; [tok|].
        sc OnCode; [apply flow_trailing|apply flow_nil].
    + unfold in_braces. cbn [cat]. sc Elsewhere; [tok|].
      sc Elsewhere; [apply flow_block, flow_entries, It|]. sc OnCode; [tok|apply flow_nil].
  - unfold rule_paren. cbn [cat]. sc Elsewhere; [tok|].
    pose proof (Cl b ltac:(lia) Sh Ev (FParen :: anc) fo0) as B.
    sc Elsewhere; [destruct (n_direct _); [apply flow_block|]; exact B|].
    sc OnCode; [tok|apply flow_nil].
  - destruct Sh as [Sf Sa], Ev as [Ef Ea]. sc Elsewhere; [apply Cl; [lia|exact Sf|exact Ef]|].
    exact (Cs SoArgs args ltac:(lia) Sa Ea _ _).
  - assert (A : forall x, In x items -> arg_ok (arg_info o pc anc x) /\ field_ok (arg_info o pc anc x)).
    { intros x I. pose proof (esize_In x items I) as Sx. pose proof (all_of_In _ _ _ Sh I) as [So Shx].
      pose proof (all_of_In _ _ _ Ev I) as Ex.
      pose proof (Cs SoArg x ltac:(lia) (conj So Shx) Ex) as D.
      destruct x as [| | | | | | | | | | | | | | | | | |n' nm v sl|]; try discriminate.
      cbn [shaped] in Shx. destruct Shx as [Sn Sv]. destruct Ex as [_ [En Evv]].
      assert (Dv : forall y, v = Some y -> forall anc fo, flow Elsewhere (fmt o pc anc fo y) Elsewhere).
      { intros y -> anc' fo'. apply Cl; [cbn [esize] in Sx; lia|exact Sv|exact Evv]. }
      assert (Dn : forall y, nm = Some y -> forall anc fo, flow Elsewhere (fmt o pc anc fo y) Elsewhere).
      { intros y -> anc' fo'.
        exact (flow_lose _ _ _ (Cs SoName y ltac:(cbn [esize] in Sx; lia) Sn En anc' fo')). }
      split; [split; [exact (D _ _)|]|].
      - cbn [arg_info ai_function]. intros d E. destruct v as [y|]; [|discriminate].
        destruct y; try discriminate. injection E as <-. cbn [cat].
        sc Elsewhere.
        + destruct nm as [z|]; [|apply flow_nil]. sc Elsewhere; [apply Dn; reflexivity|apply flow_space_any].
        + sc Elsewhere; [exact (Dv _ eq_refl (FArg :: FArgList :: anc) fo_with_grouped)|apply flow_nil].
      - intros Nm. cbn [arg_info ai_node arg_named] in Nm. destruct nm; [discriminate|].
        cbn [arg_info ai_fields]. destruct v as [y|]; cbn [argument_fields];
          [apply Dv; reflexivity|apply flow_nil]. }
    assert (F : Forall arg_ok (map (arg_info o pc anc) items))
      by (apply Forall_map, Forall_forall; intros x I; apply A, I).
    assert (Ff : Forall field_ok (map (arg_info o pc anc) items))
      by (apply Forall_map, Forall_forall; intros x I; apply A, I).
    unfold rule_args. destruct k; try (apply flow_call_like, F).
    destruct (fo_table fo) as [[]|]; try (apply flow_call_like, F).
    destruct (map (arg_info o pc anc) items) as [|i0 infos0] eqn:E; [apply flow_call_like, F|].
    rewrite <- E in *. destruct (build_table _ _ _ _) as [t|] eqn:B.
    + exact (flow_table pc Cp _ t _ KCall B F Ff).
    + apply flow_verbatim.
  - destruct Sh as [Sn Sv], Ev as [En Evv].
    assert (Dv : forall y, v = Some y -> flow Elsewhere (fmt o pc (FArg :: anc) fo0 y) Elsewhere).
    { intros y ->. apply Cl; [lia|exact Sv|exact Evv]. }
    assert (Dn : forall y, nm = Some y -> flow Elsewhere (fmt o pc (FArg :: anc) fo0 y) Elsewhere).
    { intros y ->. exact (flow_lose _ _ _ (Cs SoName y ltac:(lia) Sn En _ _)). }
    destruct nm as [x|], v as [y|]; cbn [argument_fields cat].
    + sc Elsewhere; [apply Dn; reflexivity|]. sc Elsewhere; [apply flow_space_any|].
      sc Elsewhere; [apply Dv; reflexivity|apply flow_nil].
    + sc Elsewhere; [apply Dn; reflexivity|]. sc Elsewhere; [apply flow_space_any|apply flow_nil].
    + apply Dv; reflexivity.
    + apply flow_nil.
  - unfold rule_name_clause. cbn [cat]. sc OnCode; [apply Ch; [lia|exact Sh|exact Ev]|].
    sc Elsewhere; [apply flow_space_any|]. sc OnCode; [tok|apply flow_nil].
Qed.

(** * The file *)

Lemma root_flow r : root_shaped r -> root_else_free r -> flow Elsewhere (root_doc o pc r) Elsewhere.
Proof.
  intros Sr [B Ex]. unfold root_doc. cbn [cat].
  sc Elsewhere; [apply flow_leading|].
  sc Elsewhere; [destruct (r_bom r) as [t|]; [exact (flow_lose _ _ _ (flow_token _ t B))|apply flow_nil]|].
  sc Elsewhere; [|sc Elsewhere; [apply flow_line|sc Elsewhere;
    [apply flow_dangling_soft|sc Elsewhere; [apply flow_trailing|apply flow_nil]]]].
  apply flow_entries. apply (entries_map (fun e => fmt o pc [FRootList] fo0 e)). intros x I.
  pose proof (all_of_In _ _ _ Sr I) as [So Shx].
  pose proof (fmt_flow (Datatypes.S (esize x)) x ltac:(lia) Shx (all_of_In _ _ _ Ex I) [FRootList] fo0) as H.
  rewrite So in H. exact (flow_lose _ _ _ H).
Qed.
Lemma else_on_line r out : root_shaped r -> root_else_free r -> prints (root_doc o pc r) out ->
  else_follows_code out.
Proof.
  intros Sr Ef [os [L ->]].
  destruct (run_walk os _ (root_flow r Sr Ef Expanded os (lay_glay _ _ _ L))) as [t W].
  exact (walk_follows _ _ W).
Qed.
End Formatter.
