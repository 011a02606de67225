(** From the layout of a document to the lexemes of the printed text. *)
From Coq Require Import List NArith Bool Arith Lia String.
From Verif Require Import Text TextFacts LineEndingSpec LineEndingProofs SyntaxKind FmtTree IrModel
  FmtSpec LexSpec LexProofs.
Import ListNotations.
Open Scope N_scope.

(** * Reading words, steps and pieces *)

(** Something comes that ends any lexeme. *)
Definition settle (p : place) : option (list text * place) :=
  match p with
  | Between => Some ([], Between)
  | Inside l t =>
    if complete_lexeme l && negb (in_comment l) then Some ([t], Between) else None
  end.
(** The lexemes after a token.  A string goes on, everything else is new;
    [[[]]]: no string is there to go on. *)
Definition joined (h : list text) (t : token) : list text :=
  match t_kind t, h with
  | STRING_CONTENT, [x] | STRING_CLOSE, [x] => [x ++ t_text t]
  | STRING_CONTENT, _ | STRING_CLOSE, _ => [[]]
  | R_BRACK2, _ => h ++ map (fun c => [c]) (t_text t)
  | UNICODE_BOM, _ => h
  | _, _ => h ++ [t_text t]
  end.
Fixpoint texts_eqb (a b : list text) : bool :=
  match a, b with
  | [], [] => true
  | x :: a, y :: b => text_eqb x y && texts_eqb a b
  | _, _ => false
  end.
Lemma texts_eqb_eq a : forall b, texts_eqb a b = true <-> a = b.
Proof.
  induction a as [|x a IH]; intros [|y b]; cbn [texts_eqb]; try (split; discriminate); [tauto|].
  rewrite andb_true_iff, IH, text_eqb_eq. split; [intros [-> ->]; reflexivity|].
  intros E. injection E. auto.
Qed.
(** The text does not go on with the last lexeme. *)
Definition fresh_text (p : place) (s : text) : bool :=
  match p, s with
  | Between, _ | _, [] => true
  | Inside l _, c :: _ => complete_lexeme l && match extend l c with None => true | Some _ => false end
  end.
Definition feed_word (p : place) (w : word) : option (list text * place) :=
  match w with
  | WTok t =>
    match see_all p (t_text t) with
    | Some (b, p') => if texts_eqb (b ++ held p') (joined (held p) t) then Some (code b, p') else None
    | None => None
    end
  | WVerb e =>
    match see_all p (printed_word w) with
    | Some (b, p') => if fresh_text p (printed_word w) then Some (code b, p') else None
    | None => None
    end
  | WComment _ | WBreak | WPad (Datatypes.S _) => settle p
  | WPad O => None
  end.
Lemma feed_tok p t a p' : feed_word p (WTok t) = Some (a, p') ->
  exists b, see_all p (t_text t) = Some (b, p') /\ a = code b /\ b ++ held p' = joined (held p) t.
Proof.
  cbn [feed_word]. destruct (see_all p _) as [[b p1]|]; [|discriminate].
  destruct (texts_eqb _ _) eqn:J; [|discriminate]. intros E. injection E as <- <-.
  apply texts_eqb_eq in J. exists b. auto.
Qed.
Lemma feed_verb p e a p' : feed_word p (WVerb e) = Some (a, p') ->
  exists b, see_all p (printed_word (WVerb e)) = Some (b, p') /\ a = code b /\
    fresh_text p (printed_word (WVerb e)) = true.
Proof.
  cbn [feed_word]. destruct (see_all p _) as [[b p1]|]; [|discriminate].
  destruct (fresh_text _ _) eqn:J; [|discriminate]. intros E. injection E as <- <-. exists b. auto.
Qed.
Definition feed_step (p : place) (s : step) : option (list text * place) :=
  match s with SWord w => feed_word p w | SSpace | SLine _ => settle p end.
Definition feed_op (p : place) (x : op) : option (list text * place) :=
  match x with OStep s => feed_step p s | OSuffix _ _ => Some ([], p) end.
Definition feed_piece (p : place) (x : piece) : option (list text * place) :=
  match x with PWord w => feed_word p w | PSpace | PNewline => settle p end.
Fixpoint feeds {A : Type} (f : place -> A -> option (list text * place)) (p : place) (l : list A)
  : option (list text * place) :=
  match l with
  | [] => Some ([], p)
  | x :: r =>
    match f p x with
    | Some (a, p') =>
      match feeds f p' r with Some (b, p'') => Some (a ++ b, p'') | None => None end
    | None => None
    end
  end.
Lemma feeds_app {A} f (a : list A) : forall p b, feeds f p (a ++ b) =
  match feeds f p a with
  | Some (x, p') => match feeds f p' b with Some (y, p'') => Some (x ++ y, p'') | None => None end
  | None => None
  end.
Proof.
  induction a as [|c a IH]; intros p b; cbn [app feeds].
  - destruct (feeds f p b) as [[y p'']|]; reflexivity.
  - destruct (f p c) as [[x p1]|]; [|reflexivity]. rewrite IH.
    destruct (feeds f p1 a) as [[x1 p2]|]; [|reflexivity].
    destruct (feeds f p2 b) as [[y p3]|]; [|reflexivity]. rewrite app_assoc. reflexivity.
Qed.
Lemma feeds_cat {A} f (a b : list A) p x p' y p'' :
  feeds f p a = Some (x, p') -> feeds f p' b = Some (y, p'') -> feeds f p (a ++ b) = Some (x ++ y, p'').
Proof. intros E F. rewrite feeds_app, E, F. reflexivity. Qed.

Lemma settle_lets p : lets no_char p -> settle p = Some (held p, Between).
Proof. destruct p as [|l t]; [reflexivity|]. intros [C [N _]]. cbn. rewrite C, N. reflexivity. Qed.
Lemma settle_inv p a p' : settle p = Some (a, p') -> a = held p /\ p' = Between /\ lets no_char p.
Proof.
  destruct p as [|l t]; cbn [settle].
  - intros E. injection E as <- <-. repeat split.
  - destruct (complete_lexeme l && negb (in_comment l)) eqn:C; [|discriminate].
    intros E. injection E as <- <-. apply andb_true_iff in C. destruct C as [C N].
    apply negb_true_iff in N. repeat split; auto. intros c F. discriminate F.
Qed.
Lemma lets_no f p : lets f p -> lets no_char p.
Proof. apply lets_mono. discriminate. Qed.

(** * Held-back comments *)

Lemma held_feeds h : forall p, lets no_char p ->
  exists L0 p0, feeds feed_step p (held_steps h) = Some (L0, p0) /\
    (L0 = [] /\ p0 = p \/ L0 = held p /\ p0 = Between).
Proof.
  induction h as [|[g c] h IH]; intros p L.
  - exists [], p. split; [reflexivity|left; auto].
  - change (held_steps ((g, c) :: h)) with (gap_step g :: SWord (WComment c) :: held_steps h).
    assert (G : feed_step p (gap_step g) = settle p) by (destruct g; reflexivity).
    exists (held p), Between. cbn [feeds]. rewrite G, (settle_lets p L).
    change (feed_step Between (SWord (WComment c))) with (settle Between). cbn [settle].
    destruct (IH Between I) as [L0 [p0 [E [[-> ->]|[-> ->]]]]]; rewrite E; cbn [app held];
      rewrite app_nil_r; auto.
Qed.
Lemma unsuffix_feeds os : forall h p L p',
  feeds feed_op p os = Some (L, p') -> lets no_char p' ->
  exists L2 p2, feeds feed_step p (unsuffix h os) = Some (L2, p2) /\ L2 ++ held p2 = L ++ held p' /\
    (p2 = p' \/ p2 = Between).
Proof.
  induction os as [|x os IH]; intros h p L p' H Se; cbn [feeds] in H.
  - injection H as <- <-. cbn [unsuffix]. destruct (held_feeds h p Se) as [L0 [p0 [E [[-> ->]|[-> ->]]]]];
      eexists _, _; (split; [exact E|]); cbn [held]; rewrite ?app_nil_r; auto.
  - destruct (feed_op p x) as [[a p1]|] eqn:F; [|discriminate].
    destruct (feeds feed_op p1 os) as [[b p2]|] eqn:R; [|discriminate]. injection H as <- <-.
    destruct x as [s|g c].
    + assert (Plain : exists L2 p3, feeds feed_step p (s :: unsuffix h os) = Some (L2, p3) /\
        L2 ++ held p3 = (a ++ b) ++ held p2 /\ (p3 = p2 \/ p3 = Between)).
      { destruct (IH h p1 b p2 R Se) as [L2 [p3 [E1 [E2 E3]]]]. exists (a ++ L2), p3.
        cbn [feeds]. cbn [feed_op] in F. rewrite F, E1. split; [reflexivity|].
        rewrite <- !app_assoc, E2. auto. }
      destruct s as [w| |e]; [exact Plain|exact Plain|]. clear Plain.
      cbn [feed_op feed_step] in F. apply settle_inv in F. destruct F as [-> [-> F]].
      destruct (IH [] Between b p2 R Se) as [L2 [p3 [E1 [E2 E3]]]].
      cbn [unsuffix]. destruct (held_feeds h p F) as [L0 [p0 [E K]]].
      assert (Lp : exists L1, feeds feed_step p0 (SLine e :: unsuffix [] os) = Some (L1, p3) /\
        L0 ++ L1 = held p ++ L2).
      { cbn [feeds feed_step]. destruct K as [[-> ->]|[-> ->]].
        - rewrite (settle_lets p F), E1. eexists. split; reflexivity.
        - cbn [settle]. rewrite E1. eexists. split; reflexivity. }
      destruct Lp as [L1 [E4 E5]]. exists (L0 ++ L1), p3.
      split; [exact (feeds_cat _ _ _ _ _ _ _ _ E E4)|]. rewrite E5, <- !app_assoc, E2. auto.
    + cbn [feed_op] in F. injection F as <- <-. cbn [unsuffix app]. exact (IH _ p b p2 R Se).
Qed.

(** * Spaces written before the next word *)

Definition inv (st : pstate) (p q : place) : Prop :=
  (p_line st = false -> p = Between) /\ (p_space st = true -> p_line st = true) /\
  if p_space st then p = Between /\ lets no_char q else q = p.
Definition extra (st : pstate) (q : place) : list text := if p_space st then held q else [].
Lemma print_step_feeds st s p q L p' : inv st p q -> feed_step p s = Some (L, p') ->
  exists L2 q', feeds feed_piece q (fst (print_step st s)) = Some (L2, q') /\
    inv (snd (print_step st s)) p' q' /\ extra st q ++ L = L2 ++ extra (snd (print_step st s)) q'.
Proof.
  intros [I1 [I2 I3]] F. unfold extra. destruct s as [w| |e]; cbn [feed_step] in F.
  - assert (W : feeds feed_piece p [match w with WBreak => PNewline | _ => PWord w end] = Some (L, p')).
    { cbn [feeds]. replace (feed_piece p match w with WBreak => PNewline | _ => PWord w end)
        with (feed_word p w) by (destruct w; reflexivity). rewrite F, app_nil_r. reflexivity. }
    assert (J : inv (snd (print_step st (SWord w))) p' p').
    { cbn. split; [|split; [discriminate|reflexivity]]. destruct w; try discriminate.
      intros _. cbn [feed_word] in F. apply settle_inv in F. tauto. }
    cbn [print_step fst snd p_space]. destruct (p_space st).
    + destruct I3 as [-> Q]. exists (held q ++ L), p'. split.
      * apply (feeds_cat _ [PSpace] _ _ (held q) Between); [|exact W].
        cbn [feeds feed_piece]. rewrite (settle_lets q Q), app_nil_r. reflexivity.
      * split; [exact J|]. rewrite app_nil_r. reflexivity.
    + subst q. exists L, p'. split; [exact W|]. split; [exact J|]. rewrite app_nil_r. reflexivity.
  - apply settle_inv in F. destruct F as [-> [-> F]]. cbn [print_step fst snd feeds p_space].
    exists [], q. split; [reflexivity|]. split.
    + split; [reflexivity|]. cbn [p_line p_space]. split.
      * destruct (p_space st); [auto|auto].
      * destruct (p_space st); cbn [orb]; [split; [reflexivity|apply I3]|]. subst q. destruct (p_line st); [split; [reflexivity|exact F]|].
        apply I1. reflexivity.
    + destruct (p_space st); cbn [orb].
      * destruct I3 as [-> _]. cbn [held]. rewrite app_nil_r. reflexivity.
      * subst q. destruct (p_line st); [reflexivity|]. rewrite (I1 eq_refl). reflexivity.
  - apply settle_inv in F. destruct F as [-> [-> F]].
    assert (Q : lets no_char q) by (destruct (p_space st); [apply I3|subst q; exact F]).
    assert (Ex : (if p_space st then held q else []) ++ held p = held q).
    { destruct (p_space st); [destruct I3 as [-> _]; apply app_nil_r|subst q; reflexivity]. }
    rewrite Ex. cbn [print_step].
    assert (Z : forall e', inv {| p_line := false; p_space := false; p_empty := e' |} Between Between)
      by (repeat split; discriminate).
    assert (E1 : feeds feed_piece q (if p_line st then [PNewline] else []) = Some (held q, Between)).
    { destruct (p_line st) eqn:Pl.
      - cbn [feeds feed_piece]. rewrite (settle_lets q Q), app_nil_r. reflexivity.
      - destruct (p_space st); [discriminate (I2 eq_refl)|]. subst q. rewrite (I1 eq_refl). reflexivity. }
    destruct (e && _); cbn [fst snd p_space]; exists (held q), Between; (split; [|split; [apply Z|]]);
      try (rewrite app_nil_r; reflexivity); [|exact E1].
    rewrite (feeds_cat _ _ [PNewline] _ _ _ [] Between E1 eq_refl), app_nil_r. reflexivity.
Qed.
Lemma print_steps_feeds ss : forall st p q L p', inv st p q -> feeds feed_step p ss = Some (L, p') ->
  exists L2 q', feeds feed_piece q (fst (print_steps st ss)) = Some (L2, q') /\
    inv (snd (print_steps st ss)) p' q' /\ extra st q ++ L = L2 ++ extra (snd (print_steps st ss)) q'.
Proof.
  induction ss as [|s ss IH]; intros st p q L p' J H; cbn [feeds] in H.
  - injection H as <- <-. exists [], q. cbn. rewrite app_nil_r. auto.
  - destruct (feed_step p s) as [[a p1]|] eqn:F; [|discriminate].
    destruct (feeds feed_step p1 ss) as [[b p2]|] eqn:R; [|discriminate]. injection H as <- <-.
    destruct (print_step_feeds st s p q a p1 J F) as [L2 [q1 [E1 [J1 X1]]]]. cbn [print_steps].
    destruct (print_step st s) as [o1 st1]. cbn [fst snd] in *.
    destruct (IH st1 p1 q1 b p2 J1 R) as [L3 [q2 [E2 [J2 X2]]]].
    destruct (print_steps st1 ss) as [o2 st2]. cbn [fst snd] in *.
    exists (L2 ++ L3), q2. split; [exact (feeds_cat _ _ _ _ _ _ _ _ E1 E2)|]. split; [exact J2|].
    rewrite app_assoc, X1, <- !app_assoc, X2. reflexivity.
Qed.
Lemma inv_total st p q L L2 : inv st p q -> L = L2 ++ extra st q -> L ++ held p = L2 ++ held q.
Proof.
  intros [_ [_ I]] E. unfold extra in E. destruct (p_space st).
  - destruct I as [-> _]. cbn [held]. rewrite app_nil_r. exact E.
  - subst q. rewrite app_nil_r in E. subst. reflexivity.
Qed.
Lemma inv_lets st p q f : inv st p q -> lets f p -> (p_space st = true -> lets f q) -> lets f q.
Proof. intros [_ [_ I]] L K. destruct (p_space st); [auto|subst; exact L]. Qed.
Lemma inv_settled st p q : inv st p q -> lets no_char p -> lets no_char q.
Proof. intros [_ [_ I]] L. destruct (p_space st); [apply I|subst; exact L]. Qed.

(** A file is printed from nothing. *)
Lemma run_feeds os L p' : feeds feed_op Between os = Some (L, p') -> lets no_char p' ->
  exists L2 q, feeds feed_piece Between (run os) = Some (L2, q) /\ L2 ++ held q = L ++ held p' /\
    lets no_char q.
Proof.
  intros F S. destruct (unsuffix_feeds os [] Between L p' F S) as [L1 [p1 [E1 [E2 E3]]]].
  destruct (print_steps_feeds (unsuffix [] os) pstart Between Between L1 p1) as [L2 [q [F1 [F2 F3]]]];
    [repeat split; discriminate|exact E1|].
  exists L2, q. split; [exact F1|]. cbn [extra pstart p_space app] in F3.
  rewrite <- (inv_total _ _ _ _ _ F2 F3), E2. split; [reflexivity|].
  apply (inv_settled _ _ _ F2). destruct E3 as [->| ->]; [exact S|exact I].
Qed.

(** * From pieces to text *)

Lemma code_app a b : code (a ++ b) = code a ++ code b.
Proof. apply filter_app. Qed.
Lemma hash_ends l : complete_lexeme l = true -> in_comment l = false -> extend l HASH = None.
Proof.
  intros C N. destruct (atomic l) eqn:A; [apply apart_ends; auto|].
  destruct l; try discriminate. cbn [extend]. destruct (op_prefix (t ++ [HASH])) eqn:E; [|reflexivity].
  apply op_prefix_In in E.
  assert (H : forallb (forallb (fun c => negb (c =? HASH))) starts = true) by reflexivity.
  rewrite forallb_forall in H. specialize (H _ E). rewrite forallb_app in H. cbn in H.
  rewrite andb_false_r in H. discriminate.
Qed.
Lemma comment_goes c : forall t, ~ In LF c -> see_all (Inside LComment t) c = Some ([], Inside LComment (t ++ c)).
Proof.
  induction c as [|d c IH]; intros t N; [rewrite app_nil_r; reflexivity|].
  cbn [see_all see extend]. destruct (N.eqb_spec d LF) as [->|E]; [destruct N; left; reflexivity|].
  rewrite IH by (intros X; apply N; right; exact X). rewrite <- app_assoc. reflexivity.
Qed.
Lemma see_comment p c : lets no_char p -> is_comment c = true -> ~ In LF c ->
  see_all p c = Some (held p, Inside LComment c).
Proof.
  intros L H N. destruct c as [|d c]; [discriminate|]. cbn [is_comment] in H. apply N.eqb_eq in H. subst d.
  rewrite enter.
  - cbn [see_all see]. change (begin HASH) with (Some (Inside LComment [HASH])). cbv iota.
    rewrite (comment_goes c [HASH]) by (intros X; apply N; right; exact X). rewrite app_nil_r. reflexivity.
  - destruct p as [|l t]; [exact I|]. destruct L as [C [M _]]. split; [exact C|apply hash_ends; assumption].
Qed.
Lemma held_code p : marked p -> lets no_char p -> code (held p) = held p.
Proof.
  destruct p as [|l t]; [reflexivity|]. intros [N M] [_ [C _]]. cbn [held code filter].
  rewrite <- M, C. reflexivity.
Qed.
Lemma settle_marked p a p' : settle p = Some (a, p') -> marked p'.
Proof. intros H. apply settle_inv in H. destruct H as [_ [-> _]]. exact I. Qed.
Lemma feed_word_marked p w a p' : marked p -> feed_word p w = Some (a, p') -> marked p'.
Proof.
  intros M. destruct w as [t|c|[|n]|e|]; try apply settle_marked; try discriminate; intros E.
  - apply feed_tok in E. destruct E as [b [E _]]. exact (see_all_marked _ _ _ _ M E).
  - apply feed_verb in E. destruct E as [b [E _]]. exact (see_all_marked _ _ _ _ M E).
Qed.

Definition commented (x : piece) : Prop :=
  match x with PWord (WComment c) => is_comment c = true /\ ~ In LF c | _ => True end.
Definition follows (P q : place) (ps : list piece) : Prop :=
  P = q \/ (q = Between /\ to_line_end ps /\ exists c, P = Inside LComment c /\ is_comment c = true).
Lemma indentation_blank i : indentation i -> forallb blank i = true.
Proof. induction 1 as [|c i [->| ->] F IH]; [reflexivity|exact IH|exact IH]. Qed.
Lemma blanks_between i : forallb blank i = true -> see_all Between i = Some ([], Between).
Proof. intros B. destruct i; [reflexivity|]. exact (see_blanks _ Between I B ltac:(discriminate)). Qed.
Lemma rendered_sees ps txt : rendered ps txt -> forall q L q' P,
  feeds feed_piece q ps = Some (L, q') -> marked q -> comments_closed ps -> Forall commented ps ->
  follows P q ps ->
  exists T P', see_all P txt = Some (T, P') /\ code T = L /\ follows P' q' [].
Proof.
  induction 1 as [|w ps s R IH|ps s R IH|i ps s In R IH]; intros q L q' P F M C Co Fo.
  - cbn in F. injection F as <- <-. exists [], P. repeat split. exact Fo.
  - cbn [feeds feed_piece] in F. destruct (feed_word q w) as [[a q1]|] eqn:W; [|discriminate].
    destruct (feeds feed_piece q1 ps) as [[b q2]|] eqn:F2; [|discriminate]. injection F as <- <-.
    inversion Co as [|? ? Cw Co']; subst.
    assert (Cl : comments_closed ps) by (destruct w; try exact C; apply C).
    pose proof (feed_word_marked _ _ _ _ M W) as M1.
    assert (Goal1 : exists T1 P1, see_all P (printed_word w) = Some (T1, P1) /\ code T1 = a /\ follows P1 q1 ps).
    { destruct Fo as [->|[-> [Le [c [-> Hc]]]]].
      - destruct w as [t|c|[|n]|e|]; try discriminate.
        + apply feed_tok in W. destruct W as [b1 [E [-> _]]].
          exists b1, q1. repeat split; [exact E|]. left. reflexivity.
        + apply settle_inv in W. destruct W as [-> [-> Le]]. destruct Cw as [Cc Cn].
          exists (held q), (Inside LComment c). split; [exact (see_comment q c Le Cc Cn)|].
          split; [exact (held_code q M Le)|]. right. split; [reflexivity|]. split; [apply C|eauto].
        + apply settle_inv in W. destruct W as [-> [-> Le]]. exists (held q), Between.
          split; [|split; [exact (held_code q M Le)|left; reflexivity]].
          apply (see_blanks _ q Le); [|discriminate]. cbn [printed_word].
          generalize (Datatypes.S n) as k. induction k; [reflexivity|exact IHk].
        + apply feed_verb in W. destruct W as [b1 [E [-> _]]].
          exists b1, q1. repeat split; [exact E|]. left. reflexivity.
        + apply settle_inv in W. destruct W as [-> [-> Le]]. exists (held q), Between.
          split; [|split; [exact (held_code q M Le)|left; reflexivity]].
          apply (see_blanks _ q Le); [reflexivity|discriminate].
      - destruct w as [t|c2|n|e|]; try contradiction. cbn [feed_word settle] in W.
        injection W as <- <-. destruct Cw as [Cc Cn]. cbn [printed_word].
        exists [], (Inside LComment (c ++ c2)). split; [apply comment_goes, Cn|].
        split; [reflexivity|]. right. split; [reflexivity|]. split; [exact Le|].
        eexists. split; [reflexivity|]. destruct c; [discriminate|exact Hc]. }
    destruct Goal1 as [T1 [P1 [E1 [E2 E3]]]].
    destruct (IH q1 b q2 P1 F2 M1 Cl Co' E3) as [T2 [P2 [G1 [G2 G3]]]].
    exists (T1 ++ T2), P2. rewrite see_all_app, E1, G1, code_app, E2, G2. auto.
  - cbn [feeds feed_piece] in F. destruct (settle q) as [[a q1]|] eqn:W; [|discriminate].
    destruct (feeds feed_piece q1 ps) as [[b q2]|] eqn:F2; [|discriminate]. injection F as <- <-.
    apply settle_inv in W. destruct W as [-> [-> Le]]. inversion Co as [|? ? _ Co']; subst.
    cbn [comments_closed] in C.
    assert (Goal1 : exists T1 P1, see P 32 = Some (T1, P1) /\ code T1 = held q /\ follows P1 Between ps).
    { destruct Fo as [->|[-> [Lt [c [-> Hc]]]]].
      - exists (held q), Between. split; [exact (see_blank q 32 Le eq_refl)|].
        split; [exact (held_code q M Le)|left; reflexivity].
      - exists [], (Inside LComment (c ++ [32])). split; [reflexivity|]. split; [reflexivity|].
        right. split; [reflexivity|]. split; [exact Lt|]. eexists. split; [reflexivity|].
        destruct c; [discriminate|exact Hc]. }
    destruct Goal1 as [T1 [P1 [E1 [E2 E3]]]].
    destruct (IH Between b q2 P1 F2 I C Co' E3) as [T2 [P2 [G1 [G2 G3]]]].
    exists (T1 ++ T2), P2. cbn [see_all]. rewrite E1, G1, code_app, E2, G2. auto.
  - cbn [feeds feed_piece] in F. destruct (settle q) as [[a q1]|] eqn:W; [|discriminate].
    destruct (feeds feed_piece q1 ps) as [[b q2]|] eqn:F2; [|discriminate]. injection F as <- <-.
    apply settle_inv in W. destruct W as [-> [-> Le]]. inversion Co as [|? ? _ Co']; subst.
    cbn [comments_closed] in C. pose proof (indentation_blank i In) as Bi.
    assert (Goal1 : exists T1, see P LF = Some (T1, Between) /\ code T1 = held q).
    { destruct Fo as [->|[-> [Lt [c [-> Hc]]]]].
      - exists (held q). split; [exact (see_blank q LF Le eq_refl)|exact (held_code q M Le)].
      - exists [c]. split; [reflexivity|]. cbn [code filter]. rewrite Hc. reflexivity. }
    destruct Goal1 as [T1 [E1 E2]].
    destruct (IH Between b q2 Between F2 I C Co' (or_introl eq_refl)) as [T2 [P2 [G1 [G2 G3]]]].
    exists (T1 ++ T2), P2. cbn [see_all]. rewrite E1, see_all_app, (blanks_between i Bi), G1.
    cbn [app]. rewrite code_app, E2, G2. auto.
Qed.
Lemma rendered_lex ps txt L q : rendered ps txt -> feeds feed_piece Between ps = Some (L, q) ->
  lets no_char q -> comments_closed ps -> Forall commented ps ->
  exists T, lex txt = Some T /\ code T = L ++ held q.
Proof.
  intros R F Le C Co. destruct (rendered_sees ps txt R Between L q Between F I C Co (or_introl eq_refl))
    as [T [P [E1 [E2 E3]]]]. unfold lex. rewrite E1.
  assert (M : marked q).
  { clear -F. revert F. generalize Between (I : marked Between). revert L.
    induction ps as [|x ps IH]; intros L p Mp F; cbn [feeds] in F; [injection F as _ <-; exact Mp|].
    destruct (feed_piece p x) as [[a p1]|] eqn:W; [|discriminate].
    destruct (feeds feed_piece p1 ps) as [[b p2]|] eqn:F2; [|discriminate]. injection F as _ <-.
    refine (IH b p1 _ F2). destruct x; cbn [feed_piece] in W;
      [exact (feed_word_marked _ _ _ _ Mp W)|exact (settle_marked _ _ _ W)|exact (settle_marked _ _ _ W)]. }
  destruct E3 as [->|[-> [_ [c [-> Hc]]]]].
  - exists (T ++ held q). split; [|rewrite code_app, E2, (held_code q M Le); reflexivity].
    destruct q as [|l t]; [reflexivity|]. cbn [the_end]. destruct Le as [Cl _]. rewrite Cl. reflexivity.
  - exists (T ++ [c]). split; [reflexivity|]. rewrite code_app, E2. cbn [code filter held].
    rewrite Hc. reflexivity.
Qed.
