(** R reads the printed text as the reader of FmtLineSpec.v reads the words. *)
From Coq Require Import List NArith Bool Arith Lia String.
From Verif Require Import Text TextFacts LineEndingSpec LineEndingProofs SettingsModel SyntaxKind FmtTree
  IrModel FmtSpec LexSpec LexProofs LexRunProofs RReadSpec FmtLineSpec FmtLineRunProofs RTextSpec
  RReadProofs RNestProofs.
Import ListNotations.
Local Open Scope N_scope.

(** * The tokens read so far *)

Inductive part := PaFlat | PaString | PaContent | PaEnd | PaOpener | PaCloser | PaMark.
Definition part_of (k : kind) : part :=
  match k with
  | STRING_OPEN => PaString | STRING_CONTENT => PaContent | STRING_CLOSE => PaEnd
  | L_PAREN | L_CURLY | L_BRACK | L_BRACK2 => PaOpener
  | R_PAREN | R_CURLY | R_BRACK | R_BRACK2 => PaCloser
  | UNICODE_BOM => PaMark
  | _ => PaFlat
  end.
(** [str]: inside a string.  [s]: the open delimiters. *)
Fixpoint wordy (str : bool) (s : list kind) (l : list token) : Prop :=
  match l with
  | [] => str = false
  | t :: r =>
    match part_of (t_kind t) with
    | PaString => str = false /\ is_string (t_text t) = true /\ wordy true s r
    | PaContent => str = true /\ wordy true s r
    | PaEnd => str = true /\ wordy false s r
    | PaOpener => str = false /\ opener (t_kind t) = Some (t_text t) /\ wordy false (t_kind t :: s) r
    | PaCloser =>
      str = false /\
      match s with k :: s' => closer (t_kind t) = Some (k, t_text t) /\ wordy false s' r | [] => False end
    | PaMark => False
    | PaFlat =>
      str = false /\ (kind_of (t_text t) = t_kind t /\ is_comment (t_text t) = false) /\ wordy false s r
    end
  end.
Lemma wordy_cons str s t r : wordy str s (t :: r) =
    match part_of (t_kind t) with
    | PaString => str = false /\ is_string (t_text t) = true /\ wordy true s r
    | PaContent => str = true /\ wordy true s r
    | PaEnd => str = true /\ wordy false s r
    | PaOpener => str = false /\ opener (t_kind t) = Some (t_text t) /\ wordy false (t_kind t :: s) r
    | PaCloser =>
      str = false /\
      match s with k :: s' => closer (t_kind t) = Some (k, t_text t) /\ wordy false s' r | [] => False end
    | PaMark => False
    | PaFlat =>
      str = false /\ (kind_of (t_text t) = t_kind t /\ is_comment (t_text t) = false) /\ wordy false s r
    end.
Proof. reflexivity. Qed.
Lemma part_flat k : flat_kind k = true -> part_of k = PaFlat.
Proof. destruct k; try discriminate; reflexivity. Qed.

Lemma wordy_flat str s t r : flat_kind (t_kind t) = true ->
  (wordy str s (t :: r) <->
   str = false /\ (kind_of (t_text t) = t_kind t /\ is_comment (t_text t) = false) /\ wordy false s r).
Proof. intros F. rewrite wordy_cons, (part_flat _ F). reflexivity. Qed.

Lemma nested_wordy l : nested l -> forall s r, wordy false s (map fst l ++ r) <-> wordy false s r.
Proof.
  induction 1 as [|t b F K Nc|a z b A Z T|a c z b A C Z N T|o c b b' l O C H IH|x y X IX Y IY]; intros s r.
  - reflexivity.
  - cbn [map fst app]. rewrite (wordy_flat _ _ _ _ F). tauto.
  - cbn [map fst app]. rewrite !wordy_cons, A, Z. cbn [part_of]. destruct T as [T _]. tauto.
  - cbn [map fst app]. rewrite !wordy_cons, A, C, Z. cbn [part_of]. destruct T as [T _]. tauto.
  - cbn [map fst app]. rewrite map_app, <- app_assoc. cbn [map fst app]. rewrite wordy_cons.
    destruct (closer_cases o c O C) as [E|[E|[E|E]]]; injection E as -> ->;
      cbn [part_of t_kind tk]; rewrite IH, wordy_cons; cbn [part_of t_kind tk t_text opener closer];
      tauto.
  - rewrite map_app, <- app_assoc, IX, IY. reflexivity.
Qed.

Inductive stacked : list opened -> list delim -> list kind -> Prop :=
| SK_nil : stacked [] [] []
| SK_head o d k : stacked o d k -> stacked (OHead :: o) (DHead :: d) (L_PAREN :: k)
| SK_round o d k : stacked o d k -> stacked (ORound :: o) (DRound :: d) (L_PAREN :: k)
| SK_curly o d k : stacked o d k -> stacked (OCurly :: o) (DCurly :: d) (L_CURLY :: k)
| SK_brack o d k : stacked o d k -> stacked (OSquare :: o) (DRound :: d) (L_BRACK :: k)
| SK_brack2 o d k : stacked o d k -> stacked (OSquare :: OSquare :: o) (DRound :: d) (L_BRACK2 :: k).
Lemma stacked_around o d k : stacked o d k -> around o = context_of d.
Proof. destruct 1; reflexivity. Qed.
Lemma enclosed_is_round d : enclosed d = is_round (context_of d).
Proof. destruct d as [|[] d]; reflexivity. Qed.

Record related (rst : rstate) (st : reader) (s : list kind) : Prop := {
  rel_open : stacked (rs_open rst) (rd_stack st) s;
  rel_eats : rs_eats rst = rd_eats st;
  rel_pause : rs_pause rst = if rd_broken st then LineBreak else NoBreak;
  rel_header : rs_header rst = rd_header st;
  rel_broken : rd_eats st = true -> rd_broken st = false;
  rel_closed : enclosed (rd_stack st) = true -> rd_eats st = true
}.
Lemma related_break rst st s : related rst st s -> related (r_break rst) (see_newline st) s.
Proof.
  intros [A B C D E F]. unfold r_break, see_newline. rewrite B, C. destruct (rd_eats st) eqn:Ea.
  - rewrite (E eq_refl) in *. cbn [negb orb]. split; cbn [rd_stack rd_eats rd_broken rd_header]; auto.
  - destruct (rd_broken st) eqn:Eb; cbn [negb orb]; split;
      cbn [paused rs_open rs_eats rs_pause rs_header rd_stack rd_eats rd_broken rd_header]; auto; congruence.
Qed.

(** * A token *)

(** The state after a lexeme of the role, whatever the state before. *)
Lemma lexeme_related rst st s x t s' :
  related rst st s -> kind_of x = t_kind t -> role_of (t_kind t) <> RoMark ->
  (exists o, r_open rst x = Some o /\ stacked o (rd_stack (after_role (role_of (t_kind t)) st)) s') ->
  (t_kind t = ELSE_KW -> rd_broken st = false) ->
  exists b rst', see_token st t = ([(t, b)], after_role (role_of (t_kind t)) st) /\
    r_lexeme rst x = Some (b, rst') /\ related rst' (after_role (role_of (t_kind t)) st) s'.
Proof.
  intros R K M [o [O Sk]] Els. destruct R as [A B C D E F].
  unfold r_lexeme. rewrite O, K.
  assert (Mk : see_token st t = ([(t, r_mark rst x)], after_role (role_of (t_kind t)) st)).
  { unfold see_token, r_mark. rewrite K, C. destruct (t_kind t) eqn:Et; cbn [role_of] in M |- *; try contradiction;
      try (destruct (rd_broken st); reflexivity).
    rewrite (Els eq_refl). reflexivity. }
  rewrite Mk. do 2 eexists. split; [reflexivity|]. split; [reflexivity|].
  assert (G : goes_on (role_of (t_kind t)) (rs_open rst) =
    match role_of (t_kind t) with
    | RoContinues | RoHeader | RoOpenCurly => true
    | RoCloseRound => match rd_stack st with DHead :: _ => true | _ => false end
    | _ => false
    end).
  { unfold goes_on. destruct (role_of (t_kind t)); try reflexivity. inversion A; reflexivity. }
  split; cbn [rs_open rs_eats rs_pause rs_header rd_broken after_role rd_eats rd_header] in *.
  - exact Sk.
  - rewrite G, (stacked_around _ _ _ Sk), <- enclosed_is_round. reflexivity.
  - reflexivity.
  - reflexivity.
  - reflexivity.
  - intros Q. apply orb_true_iff. right. exact Q.
Qed.

Lemma r_lex_item st x b st' : is_comment x = false -> r_lexeme st x = Some (b, st') ->
  r_items st [ILex x] = Some ([(x, b)], st').
Proof. intros N L. apply r_items_one. cbn [r_item]. rewrite N, L. reflexivity. Qed.

(** Tokens other than the rest of a string. *)
Lemma token_related rst st s t r :
  related rst st s -> wordy false s (t :: r) -> (t_kind t = ELSE_KW -> rd_broken st = false) ->
  exists s' m rst' b st',
    wordy (kind_eqb (t_kind t) STRING_OPEN) s' r /\
    see_token st t = ([(t, b)], st') /\
    add_token [] (t, b) = m /\ (forall M, add_token M (t, b) = M ++ m) /\
    (forall h, joined h t = h ++ map fst m) /\
    r_items rst (lex_items (map fst m)) = Some (m, rst') /\ related rst' st' s' /\
    (t_kind t = STRING_OPEN -> is_string (t_text t) = true) /\
    (total (map fst m) = List.length (t_text t)).
Proof.
  intros R W Els.
  assert (Plain : forall s', kind_of (t_text t) = t_kind t -> is_comment (t_text t) = false ->
    plain_token t \/ t_kind t = STRING_OPEN ->
    role_of (t_kind t) <> RoMark ->
    (exists o, r_open rst (t_text t) = Some o /\ stacked o (rd_stack (after_role (role_of (t_kind t)) st)) s') ->
    wordy (kind_eqb (t_kind t) STRING_OPEN) s' r ->
    (t_kind t = STRING_OPEN -> is_string (t_text t) = true) ->
    exists s' m rst' b st',
    wordy (kind_eqb (t_kind t) STRING_OPEN) s' r /\
    see_token st t = ([(t, b)], st') /\
    add_token [] (t, b) = m /\ (forall M, add_token M (t, b) = M ++ m) /\
    (forall h, joined h t = h ++ map fst m) /\
    r_items rst (lex_items (map fst m)) = Some (m, rst') /\ related rst' st' s' /\
    (t_kind t = STRING_OPEN -> is_string (t_text t) = true) /\
    (total (map fst m) = List.length (t_text t))).
  { intros s' K N P Mk O Ws Is.
    destruct (lexeme_related rst st s (t_text t) t s' R K Mk O Els) as [b [rst' [E1 [E2 E3]]]].
    assert (Ad : forall M, add_token M (t, b) = M ++ [(t_text t, b)]).
    { intros M. unfold add_token, plain_token in *. destruct (t_kind t); try reflexivity;
        destruct P as [P|P]; try contradiction; try discriminate P. }
    exists s', [(t_text t, b)], rst', b, (after_role (role_of (t_kind t)) st).
    split; [exact Ws|]. split; [exact E1|]. split; [apply (Ad [])|]. split; [exact Ad|]. split.
    - intros h. assert (J : joined h t = h ++ [t_text t]).
      { unfold joined, plain_token in *. destruct (t_kind t); try reflexivity;
          destruct P as [P|P]; try contradiction; try discriminate P. }
      exact J.
    - split; [exact (r_lex_item _ _ _ _ N E2)|]. split; [exact E3|]. split; [exact Is|].
      unfold total. cbn. rewrite app_nil_r. reflexivity. }
  destruct (flat_kind (t_kind t)) eqn:Fl.
  - apply (wordy_flat _ _ _ _ Fl) in W. destruct W as [_ [[K N] W]].
    apply (Plain s K N).
    + left. unfold plain_token. destruct (t_kind t); try discriminate; exact I.
    + destruct (t_kind t); discriminate.
    + exists (rs_open rst). unfold r_open. rewrite K. destruct R as [A _ _ _ _ _].
      split; [destruct (t_kind t); try discriminate; reflexivity|].
      cbn [after_role rd_stack]. destruct (t_kind t); try discriminate; exact A.
    + replace (kind_eqb (t_kind t) STRING_OPEN) with false; [exact W|].
      destruct (t_kind t); try discriminate; reflexivity.
    + intros E. rewrite E in Fl. discriminate.
  - destruct R as [A B C D E F]. pose proof (Build_related rst st s A B C D E F) as R.
    destruct t as [k x]. cbn [t_kind t_text] in *.
    destruct k; try discriminate Fl; rewrite wordy_cons in W;
      cbn [part_of t_kind t_text] in W; try contradiction;
      try (destruct W as [W _]; discriminate W).
    + destruct W as [_ [W1 W]].
      apply (Plain s); try discriminate; try exact W.
      * exact (string_kind x W1).
      * destruct x as [|c x]; [discriminate|]. cbn [is_comment is_string] in *.
        destruct (N.eqb_spec c HASH) as [->|]; [discriminate|reflexivity].
      * right. reflexivity.
      * exists (rs_open rst). split; [unfold r_open; cbn [t_text]; rewrite (string_kind x W1); reflexivity|].
        exact A.
      * intros _. exact W1.
    + destruct W as [_ [W1 W]]. injection W1 as <-.
      apply (Plain (L_PAREN :: s)); try reflexivity; try discriminate; try exact W; [left; exact I|].
      eexists. split; [reflexivity|]. cbn [after_role rd_stack role_of]. rewrite D.
      destruct (rd_header st); constructor; exact A.
    + destruct W as [_ W]. destruct s as [|k s']; [contradiction|]. destruct W as [W1 W].
      injection W1 as <- <-.
      apply (Plain s'); try reflexivity; try discriminate; try exact W; [left; exact I|].
      inversion A; subst; (eexists; split; [unfold r_open; cbn; rewrite <- H; reflexivity|]);
      cbn [after_role rd_stack role_of]; rewrite <- H0; assumption.
    + destruct W as [_ [W1 W]]. injection W1 as <-.
      apply (Plain (L_BRACK :: s)); try reflexivity; try discriminate; try exact W; [left; exact I|].
      eexists. split; [reflexivity|]. constructor. exact A.
    + destruct W as [_ W]. destruct s as [|k s']; [contradiction|]. destruct W as [W1 W].
      injection W1 as <- <-.
      apply (Plain s'); try reflexivity; try discriminate; try exact W; [left; exact I|].
      inversion A; subst. eexists. split; [unfold r_open; cbn; rewrite <- H; reflexivity|].
      cbn [after_role rd_stack role_of]. rewrite <- H0. assumption.
    + destruct W as [_ [W1 W]]. injection W1 as <-.
      apply (Plain (L_BRACK2 :: s)); try reflexivity; try discriminate; try exact W; [left; exact I|].
      eexists. split; [reflexivity|]. constructor. exact A.
    + (* ]] *)
      destruct W as [_ W]. destruct s as [|k s']; [contradiction|]. destruct W as [W1 W].
      injection W1 as <- <-. inversion A; subst.
      exists s', [($"]", rd_broken st); ($"]", false)].
      set (rst1 := {| rs_open := OSquare :: o; rs_eats := true; rs_fresh := false; rs_pause := NoBreak;
                      rs_header := false |}).
      exists {| rs_open := o; rs_eats := is_round (around o); rs_fresh := false; rs_pause := NoBreak;
                rs_header := false |}, (rd_broken st), (after_role RoCloseSquare st).
      assert (L1 : r_lexeme rst $"]" = Some (rd_broken st, rst1)).
      { unfold r_lexeme, r_open. change (role_of (kind_of $"]")) with RoCloseSquare. rewrite <- H.
        cbn [goes_on around is_round orb]. unfold r_mark. change (kind_of $"]") with R_BRACK. cbv iota.
        rewrite C. destruct (rd_broken st); reflexivity. }
      split; [exact W|]. split; [reflexivity|]. split; [reflexivity|]. split; [reflexivity|].
      split; [reflexivity|].
      split.
      * change (lex_items (map fst [($"]", rd_broken st); ($"]", false)])) with
          ([ILex $"]"] ++ [ILex $"]"]).
        apply (r_items_cat _ _ [($"]", rd_broken st)] rst1); [apply r_lex_item; [reflexivity|exact L1]|].
        apply r_lex_item; reflexivity.
      * split; [|split; [discriminate|reflexivity]].
        split; cbn [rs_open rs_eats rs_pause rs_header rd_broken after_role rd_eats rd_header rd_stack];
          rewrite <- ?H0; cbn [tl]; auto.
        rewrite (stacked_around _ _ _ H2), <- enclosed_is_round. reflexivity.
    + destruct W as [_ [W1 W]]. injection W1 as <-.
      apply (Plain (L_CURLY :: s)); try reflexivity; try discriminate; try exact W; [left; exact I|].
      exists (OCurly :: rs_open rst). split; [reflexivity|]. constructor. exact A.
    + destruct W as [_ W]. destruct s as [|k s']; [contradiction|]. destruct W as [W1 W].
      injection W1 as <- <-.
      apply (Plain s'); try reflexivity; try discriminate; try exact W; [left; exact I|].
      inversion A; subst. eexists. split; [unfold r_open; cbn; rewrite <- H; reflexivity|].
      cbn [after_role rd_stack role_of]. rewrite <- H0. assumption.
Qed.

(** * The rest of a string *)

Lemma see_some p c a p' : marked p -> LexSpec.see p c = Some (a, p') -> Forall (fun x => x <> []) a.
Proof.
  intros M. destruct p as [|l t]; cbn [LexSpec.see].
  - destruct (begin c); [|discriminate]. intros E. injection E as <- _. constructor.
  - destruct (extend l c); [intros E; injection E as <- _; constructor|].
    destruct (complete_lexeme l); [|discriminate]. destruct (begin c); [|discriminate].
    intros E. injection E as <- _. constructor; [apply M|constructor].
Qed.
Lemma see_all_some s : forall p a p', marked p -> see_all p s = Some (a, p') -> Forall (fun x => x <> []) a.
Proof.
  induction s as [|c s IH]; intros p a p' M H; cbn [see_all] in H; [injection H as <- _; constructor|].
  destruct (LexSpec.see p c) as [[x p1]|] eqn:E; [|discriminate].
  destruct (see_all p1 s) as [[y p2]|] eqn:R; [|discriminate]. injection H as <- _.
  apply Forall_app. split; [exact (see_some _ _ _ _ M E)|].
  exact (IH _ _ _ (see_marked _ _ _ _ M E) R).
Qed.
Lemma feed_rest q t a q1 : marked q -> feed_word q (WTok t) = Some (a, q1) ->
  part_of (t_kind t) = PaContent \/ part_of (t_kind t) = PaEnd -> q <> Between.
Proof.
  intros M F K ->. apply feed_tok in F. destruct F as [b [E [_ J]]].
  assert (J' : joined (held Between) t = [[]]).
  { unfold joined. destruct (t_kind t); destruct K as [K|K]; try discriminate K; reflexivity. }
  rewrite J' in J. pose proof (see_all_some _ _ _ _ M E) as S. pose proof (see_all_marked _ _ _ _ M E) as M1.
  destruct b as [|x b].
  - destruct q1 as [|l x]; [discriminate|]. injection J as ->. destruct M1 as [N _]. contradiction.
  - injection J as -> _. inversion S; contradiction.
Qed.
Lemma nested_wordy_in l s r : nested l -> l <> [] -> ~ wordy true s (map fst l ++ r).
Proof.
  intros H. revert s r.
  induction H as [|t b F K Nc|a z b A Z T|a c z b A C Z N T|o c b b' l O C H IH|x y X IX Y IY]; intros s r E W;
    cbn [map fst app] in W; rewrite ?wordy_cons in W.
  - contradiction.
  - rewrite (part_flat _ F) in W. destruct W as [W _]. discriminate.
  - rewrite A in W. destruct W as [W _]. discriminate.
  - rewrite A in W. destruct W as [W _]. discriminate.
  - destruct (opener_cases o O) as [->|[->|[->| ->]]]; destruct W as [W _]; discriminate.
  - destruct x as [|u x].
    + exact (IY s r E W).
    + rewrite map_app, <- app_assoc in W. exact (IX s _ ltac:(discriminate) W).
Qed.

Section Copied.
Context {Cr : copy_rule}.
Hypothesis fit : forall c e, may_copy c e -> fitting c e /\ nested (lines e).

Definition bom_ok (x : piece) : Prop :=
  match x with PWord (WTok t) => t_kind t = UNICODE_BOM -> t_text t = [65279] | _ => True end.

(** Nothing stands between the parts of a string. *)
Lemma no_gap ps : forall L q' st l stF s,
  feeds feed_piece Between ps = Some (L, q') -> copies copy_piece FmtLineSpec.see st ps ->
  scan st ps = (l, stF) -> Forall bom_ok ps -> ~ wordy true s (map fst l).
Proof.
  induction ps as [|x ps IH]; intros L q' st l stF s F C Sc B W.
  - cbn in Sc. injection Sc as <- _. discriminate W.
  - cbn [feeds] in F. destruct (feed_piece Between x) as [[a q1]|] eqn:Fx; [|discriminate].
    destruct (feeds feed_piece q1 ps) as [[b q2]|] eqn:F2; [|discriminate].
    cbn [copies] in C. destruct C as [Cx C]. cbn [scan] in Sc.
    destruct (FmtLineSpec.see st x) as [a1 st1] eqn:Sx.
    destruct (scan st1 ps) as [b1 st2] eqn:Sc2. injection Sc as <- _. cbn [snd] in C.
    inversion B as [|? ? Bx B']; subst. rewrite map_app in W.
    assert (Next : a1 = [] -> q1 = Between -> False).
    { intros -> ->. exact (IH _ _ _ _ _ s F2 C Sc2 B' W). }
    destruct x as [[t|c|[|n]|e|]| |]; cbn [feed_piece] in Fx; try discriminate Fx;
      cbn [FmtLineSpec.see see_word] in Sx;
      try (injection Sx as <- <-; apply Next; [reflexivity|];
           cbn [feed_word settle] in Fx; injection Fx as _ <-; reflexivity).
    + unfold see_token in Sx. destruct (part_of (t_kind t)) eqn:Pt.
      7:{ assert (K : t_kind t = UNICODE_BOM) by (destruct (t_kind t); try discriminate Pt; reflexivity).
          rewrite K in Sx. cbn [role_of] in Sx. injection Sx as <- <-. apply Next; [reflexivity|].
          apply feed_tok in Fx. destruct Fx as [b2 [E _]]. rewrite (Bx K) in E. injection E as _ <-.
          reflexivity. }
      all: assert (Ha : exists b', a1 = [(t, b')])
        by (destruct (t_kind t); try discriminate Pt; injection Sx as <- _; eexists; reflexivity).
      all: destruct Ha as [b' ->]; cbn [map fst app] in W; rewrite wordy_cons, Pt in W.
      all: try (destruct W as [W _]; discriminate W).
      * exact (feed_rest Between t _ _ I Fx (or_introl Pt) eq_refl).
      * exact (feed_rest Between t _ _ I Fx (or_intror Pt) eq_refl).
    + injection Sx as <- <-. destruct Cx as [_ Cx]. destruct (fit _ _ Cx) as [[Em _] Ne].
      destruct (lines e) as [|y r] eqn:El.
      * apply Next; [reflexivity|]. apply feed_verb in Fx. destruct Fx as [b2 [E _]].
        cbn [printed_word] in E. rewrite (proj2 (Em eq_refl)) in E. injection E as _ <-. reflexivity.
      * apply (nested_wordy_in (flag (rd_broken st) (y :: r)) s (map fst b1)).
        -- exact (proj1 (nested_flag _ _ Ne)).
        -- destruct y. discriminate.
        -- exact W.
Qed.

(** * One word after the other *)

(** The last lexeme read is the beginning of a string. *)
Definition stringing (is : list item) (P : place) (M : list (text * bool)) (rst : rstate) : Prop :=
  exists l x M0 rst0 b, P = Inside l x /\ is_string x = true /\ M = M0 ++ [(x, b)] /\
    r_items r_start is = Some (M0, rst0) /\ r_lexeme rst0 x = Some (b, rst).
Record sim (str : bool) (s : list kind) (is : list item) (P : place) (M : list (text * bool))
  (rst : rstate) (st : reader) : Prop := {
  sim_read : r_items r_start (is ++ lex_items (held P)) = Some (M, rst);
  sim_rel : related rst st s;
  sim_str : str = true -> stringing is P M rst
}.
Lemma lex_items_app a b : lex_items (a ++ b) = lex_items a ++ lex_items b.
Proof. apply map_app. Qed.
Lemma string_no_comment x : is_string x = true -> LexSpec.is_comment x = false.
Proof.
  destruct x as [|c x]; [discriminate|]. cbn [LexSpec.is_comment is_string].
  destruct (N.eqb_spec c HASH) as [->|]; [discriminate|reflexivity].
Qed.
Lemma string_lexeme st x b st' : is_string x = true -> r_lexeme st x = Some (b, st') ->
  b = match rs_pause st with NoBreak => false | _ => true end /\
  st' = {| rs_open := rs_open st; rs_eats := is_round (around (rs_open st)); rs_fresh := false;
           rs_pause := NoBreak; rs_header := false |}.
Proof.
  intros S. unfold r_lexeme, r_open, r_mark. rewrite (string_kind x S). cbn [role_of goes_on orb].
  intros E. injection E as <- <-. split; [destruct (rs_pause st); reflexivity|reflexivity].
Qed.
Lemma string_lexeme_of st x : is_string x = true ->
  r_lexeme st x = Some (match rs_pause st with NoBreak => false | _ => true end,
    {| rs_open := rs_open st; rs_eats := is_round (around (rs_open st)); rs_fresh := false;
       rs_pause := NoBreak; rs_header := false |}).
Proof.
  intros S. unfold r_lexeme, r_open, r_mark. rewrite (string_kind x S). cbn [role_of goes_on orb].
  destruct (rs_pause st); reflexivity.
Qed.

Definition calm (l : list (token * bool)) : Prop :=
  Forall (fun x => t_kind (fst x) = ELSE_KW -> snd x = false) l.

Lemma held_one b q (x : list text) y : b ++ held q = x ++ [y] -> q <> Between ->
  b = x /\ exists l, q = Inside l y.
Proof.
  destruct q as [|l z]; [contradiction|]. cbn [held]. intros E _. apply app_inj_tail in E.
  destruct E as [-> ->]. eauto.
Qed.

Lemma token_sim q t a q1 str s is M rst st l1 st1 rest :
  feed_word q (WTok t) = Some (a, q1) -> marked q -> sim str s is q M rst st ->
  see_token st t = (l1, st1) -> wordy str s (map fst l1 ++ rest) -> calm l1 ->
  (t_kind t = UNICODE_BOM -> t_text t = [65279]) ->
  (forall s1, wordy true s1 rest -> q1 <> Between) ->
  exists is1 str1 s1 rst1, items_from q (t_text t) = Some (is1, q1) /\ wordy str1 s1 rest /\
    sim str1 s1 (is ++ is1) q1 (fold_left add_token l1 M) rst1 st1.
Proof.
  intros F Mk [Rd Rl Ss] Sx W Ca Bm Al. apply feed_tok in F. destruct F as [b [E [_ J]]].
  destruct (kind_eqb (t_kind t) UNICODE_BOM) eqn:Kb.
  { apply kind_eqb_eq in Kb. unfold see_token in Sx. rewrite Kb in Sx. cbn [role_of] in Sx.
    injection Sx as <- <-. specialize (Bm Kb). rewrite Bm in *. cbn [map app fold_left] in *.
    unfold joined in J. rewrite Kb in J.
    assert (E' : items_from q [65279] = Some (lex_items b, q1)).
    { cbn [items_from see_all] in *. destruct (LexSpec.see q 65279) as [[x p1]|]; [|discriminate].
      injection E as <- <-. rewrite app_nil_r. destruct p1; cbn; rewrite !app_nil_r; reflexivity. }
    exists (lex_items b), str, s, rst. split; [exact E'|]. split; [exact W|]. split.
    - rewrite <- app_assoc, <- lex_items_app, J. exact Rd.
    - exact Rl.
    - intros ->. exfalso. destruct (Ss eq_refl) as [l [x [M0 [rst0 [b0 [-> [Is _]]]]]]].
      apply (Al s W). cbn [see_all LexSpec.see] in E. destruct (extend l 65279).
      + injection E as <- <-. cbn [held app] in J. injection J as J. exfalso.
        apply (f_equal (@List.length char)) in J. rewrite app_length in J. cbn in J. lia.
      + destruct (complete_lexeme l); [|discriminate]. injection E as _ <-. reflexivity. }
  assert (Nm : t_kind t <> UNICODE_BOM) by (intros Q; rewrite Q in Kb; discriminate).
  assert (Hl : exists b0, l1 = [(t, b0)]).
  { unfold see_token in Sx. destruct (t_kind t); try contradiction; injection Sx as <- _; eexists; reflexivity. }
  destruct Hl as [b0 ->]. cbn [map fst app fold_left] in *.
  destruct str.
  - destruct (Ss eq_refl) as [l [x [M0 [rst0 [b1 [-> [Is [-> [R0 L0]]]]]]]]].
    assert (K : (t_kind t = STRING_CONTENT \/ t_kind t = STRING_CLOSE) /\
                wordy (kind_eqb (t_kind t) STRING_CONTENT) s rest).
    { rewrite wordy_cons in W. destruct (t_kind t); cbn [part_of] in W;
        try contradiction; try (destruct W as [W _]; discriminate W); destruct W as [_ W];
        (split; [auto|exact W]). }
    destruct K as [K Wr].
    assert (J' : joined (held (Inside l x)) t = [] ++ [x ++ t_text t]).
    { cbn [held joined app]. unfold joined. destruct K as [->| ->]; reflexivity. }
    rewrite J' in J.
    assert (Kept : items_from (Inside l x) (t_text t) = Some (lex_items b, q1)).
    { apply items_kept; [exact E|]. rewrite <- total_app, J. unfold total. cbn.
      rewrite !app_nil_r, app_length. reflexivity. }
    exists (lex_items b), (kind_eqb (t_kind t) STRING_CONTENT), s, rst.
    split; [exact Kept|]. split; [exact Wr|].
    destruct (string_lexeme _ _ _ _ Is L0) as [Eb Er].
    assert (L1 : r_lexeme rst0 (x ++ t_text t) = Some (b1, rst)).
    { rewrite (string_lexeme_of rst0 _ (is_string_app _ (t_text t) Is)), Eb, Er. reflexivity. }
    assert (Ad : add_token (M0 ++ [(x, b1)]) (t, b0) = M0 ++ [(x ++ t_text t, b1)])
      by (rewrite (add_rest _ t b0 K); apply join_last_app).
    rewrite Ad. split.
    + rewrite <- app_assoc, <- lex_items_app, J. cbn [app].
      exact (r_items_cat _ _ _ _ _ _ _ R0
               (r_lex_item _ _ _ _ (string_no_comment _ (is_string_app _ _ Is)) L1)).
    + assert (St : st1 = after_role RoPlain st).
      { unfold see_token in Sx. destruct K as [K|K]; rewrite K in Sx; injection Sx as _ <-; reflexivity. }
      subst st1. destruct Rl as [A B C D X F]. subst rst. cbn [rs_open rs_eats rs_pause rs_header] in *.
      split; cbn [rs_open rs_eats rs_pause rs_header after_role rd_stack rd_eats rd_broken rd_header];
        try reflexivity; try exact A.
      * rewrite (stacked_around _ _ _ A), <- enclosed_is_round. reflexivity.
      * auto.
    + intros Kc. destruct (held_one b q1 [] (x ++ t_text t) J) as [-> [l' ->]].
      { apply (Al s). rewrite Kc in Wr. exact Wr. }
      exists l', (x ++ t_text t), M0, rst0, b1. cbn [lex_items map]. rewrite app_nil_r.
      split; [reflexivity|]. split; [apply is_string_app, Is|]. auto.
  - destruct (token_related rst st s t rest Rl W) as [s' [m [rst' [b1 [st' [W1 [E1 [_ [E3 [E4 [E5 [E6 [E7 E8]]]]]]]]]]]]].
    { intros Ke. inversion Ca as [|? ? C1 _]; subst. specialize (C1 Ke). cbn [snd] in C1.
      unfold see_token in Sx. rewrite Ke in Sx. cbn [role_of] in Sx. injection Sx as Sx _. congruence. }
    rewrite Sx in E1. injection E1 as <- <-. rewrite E3. rewrite (E4 (held q)) in J.
    assert (Kept : items_from q (t_text t) = Some (lex_items b, q1)).
    { apply items_kept; [exact E|]. rewrite <- total_app, J, total_app, E8. reflexivity. }
    exists (lex_items b), (kind_eqb (t_kind t) STRING_OPEN), s', rst'.
    split; [exact Kept|]. split; [exact W1|]. split.
    + rewrite <- app_assoc, <- lex_items_app, J, lex_items_app, app_assoc.
      exact (r_items_cat _ _ _ _ _ _ _ Rd E5).
    + exact E6.
    + intros Ko. rewrite Ko in W1. pose proof Ko as Ko'. apply kind_eqb_eq in Ko.
      assert (m = [(t_text t, b0)]) as ->.
      { pose proof (E3 []) as Q. rewrite (add_open _ t b0 Ko) in Q. symmetry. exact Q. }
      cbn [map fst] in J. destruct (held_one b q1 (held q) (t_text t) J (Al s' W1)) as [-> [l' ->]].
      exists l', (t_text t), M, rst, b0. split; [reflexivity|]. split; [exact (E7 Ko)|].
      split; [reflexivity|]. split; [exact Rd|].
      cbn [lex_items map fst r_items r_item] in E5. rewrite (string_no_comment _ (E7 Ko)) in E5.
      destruct (r_lexeme rst (t_text t)) as [[b2 st2]|]; [|discriminate]. injection E5 as -> ->. reflexivity.
Qed.

Lemma same_flag b l l' : Forall2 same_marked l l' -> Forall2 same_marked (flag b l) (flag b l').
Proof.
  intros [|[t f] [t' f'] l1 l1' [S1 S2] F]; [constructor|]. cbn [flag]. cbn [fst snd] in *. subst f'.
  constructor; [split; [reflexivity|exact S2]|exact F].
Qed.
Lemma flag_nil b l : flag b l = [] -> l = [].
Proof. destruct l as [|[t f] l]; [reflexivity|discriminate]. Qed.

Lemma verb_sim q e a q1 str s is M rst st rest :
  feed_word q (WVerb e) = Some (a, q1) -> marked q -> sim str s is q M rst st ->
  copy_word st (WVerb e) -> wordy str s (map fst (flag (rd_broken st) (lines e)) ++ rest) ->
  calm (flag (rd_broken st) (lines e)) ->
  exists is1 l1 rst1, items_from q (printed_word (WVerb e)) = Some (is1, q1) /\
    Forall2 same_marked (flag (rd_broken st) (lines e)) l1 /\ wordy str s rest /\
    sim str s (is ++ is1) q1 (fold_left add_token l1 M) rst1 (at_rest (rd_stack st)).
Proof.
  intros F Mk Sm [Hd Cp] W Ca. destruct (fit _ _ Cp) as [[Em [iv [lv [sv [I1 [I2 [I3 [I4 [I5 [I6 [I7 I8]]]]]]]]]]] Ne].
  apply feed_verb in F. destruct F as [b [E [_ Fr]]]. cbn [printed_word] in *.
  set (V := without_cr_of_crlf (n_src (notes_of e))) in *.
  destruct (lines e) as [|y0 r0] eqn:El.
  - destruct (Em eq_refl) as [Cx Sr]. assert (Ev : V = []) by (unfold V; rewrite Sr; reflexivity).
    rewrite Ev in *. cbn [see_all] in E. injection E as <- <-.
    exists [], [], rst. split; [reflexivity|]. split; [constructor|]. split; [exact W|].
    rewrite app_nil_r. cbn [fold_left].
    replace (at_rest (rd_stack st)) with st; [exact Sm|].
    destruct Sm as [_ [_ _ _ _ Br Cl] _].
    assert (En : enclosed (rd_stack st) = true) by (rewrite enclosed_is_round, Cx; reflexivity).
    specialize (Cl En). specialize (Br Cl). destruct st as [s1 s2 s3 s4]. cbn in *. subst.
    unfold at_rest. rewrite En. reflexivity.
  - rewrite <- El in *. set (c := context_of (rd_stack st)) in *.
    assert (Nl : lines e <> []) by (rewrite El; discriminate). clear El y0 r0 Em.
    destruct str.
    { exfalso. refine (nested_wordy_in _ s rest (proj1 (nested_flag (rd_broken st) _ Ne)) _ W).
      intros Q. exact (Nl (flag_nil _ _ Q)). }
    destruct (nested_flag (rd_broken st) _ Ne) as [Nf _]. apply (proj1 (nested_wordy _ Nf s rest)) in W.
    pose proof (nested_same _ Ne _ I4) as Nv.
    assert (Lv : lv <> []) by (intros ->; inversion I4 as [Q|]; symmetry in Q; contradiction).
    pose proof (nested_some _ Nv Lv) as Mv.
    destruct iv as [|[x| |] iv]; try contradiction.
    { cbn [r_items] in I3. injection I3 as I3 _. symmetry in I3. contradiction. }
    destruct V as [|v V'] eqn:EV; [discriminate I1|].
    assert (Bl : blocks q v).
    { destruct q as [|l t]; [exact I|]. cbn [fresh_text] in Fr. apply andb_true_iff in Fr.
      destruct Fr as [F1 F2]. split; [exact F1|]. destruct (extend l v); [discriminate|reflexivity]. }
    unfold items in I1. rewrite (items_enter q v V' Bl).
    destruct (items_from Between (v :: V')) as [[iw q2]|] eqn:Iw; [|discriminate].
    assert (q2 = q1) as ->.
    { destruct (items_see _ _ _ _ Iw) as [b2 S2]. rewrite (enter q v V' Bl), S2 in E. injection E as _ <-.
      reflexivity. }
    assert (Iv : iw ++ lex_items (held q1) = ILex x :: iv).
    { destruct q1 as [|l t]; cbn [the_end] in I1.
      - injection I1 as <-. reflexivity.
      - destruct (complete_lexeme l); [|discriminate]. injection I1 as <-. reflexivity. }
    cbn [r_items r_item] in I3. rewrite I2 in I3.
    destruct (r_lexeme (r_inside c) x) as [[b0 st2]|] eqn:L0; [|discriminate].
    destruct (r_items st2 iv) as [[m' sv']|] eqn:Ri; [|discriminate].
    injection I3 as I3 <-.
    assert (b0 = false) as ->.
    { unfold r_lexeme in L0. destruct (r_open (r_inside c) x); [|discriminate]. injection L0 as <- _.
      unfold r_mark. cbn [r_inside rs_pause]. destruct (kind_of x); reflexivity. }
    cbn [app] in I3. destruct Sm as [Rd Rl _]. pose proof Rl as [A B C D X0 X1].
    pose proof (stacked_around _ _ _ A) as Ar. fold c in Ar.
    destruct (r_lexeme_behind c (rs_open rst) [] (r_inside c) rst x false st2 Ar eq_refl eq_refl
                ltac:(rewrite D, Hd; reflexivity) L0) as [st2' [L1 B1]].
    destruct (r_items_behind c (rs_open rst) Ar iv st2 st2' m' sv' B1 Ri) as [rst1 [Ri1 B2]].
    symmetry in I3. destruct (nested_first lv Nv x false m' I3) as [t [r [Elv Kx]]].
    assert (Kc : t_kind t <> R_CURLY).
    { intros Q. pose proof (proj2 (nested_wordy lv Nv [] []) eq_refl) as Wn.
      rewrite Elv in Wn. cbn [map fst app] in Wn. rewrite wordy_cons, Q in Wn. destruct Wn as [_ []]. }
    assert (Ke : t_kind t = ELSE_KW -> rd_broken st = false).
    { intros Q. rewrite Elv in I4. inversion I4 as [|[t0 f0] ? ? ? [S1 S2] ? E1]; subst.
      cbn [fst snd] in *. pose proof (same_kind _ _ S2) as Sk. unfold calm in Ca. rewrite <- E1 in Ca.
      cbn [flag] in Ca. inversion Ca as [|? ? C1 _]; subst. cbn [fst snd] in C1.
      assert (Q' : t_kind t0 = ELSE_KW) by congruence. apply C1, orb_false_iff in Q'. apply Q'. }
    assert (Mx : r_mark rst x = rd_broken st).
    { unfold r_mark. rewrite Kx, C. destruct (t_kind t) eqn:Et; try contradiction;
        try (destruct (rd_broken st); reflexivity). rewrite (Ke eq_refl). reflexivity. }
    rewrite Mx in L1.
    exists (lex_items (held q) ++ iw), (flag (rd_broken st) lv), rst1.
    split; [reflexivity|]. split; [exact (same_flag _ _ _ I4)|]. split; [exact W|].
    destruct (nested_flag (rd_broken st) lv Nv) as [Nfv Mf]. rewrite (nested_grow _ Nfv), Mf, I3.
    cbn [mark_first]. rewrite orb_false_r. split.
    + rewrite <- !app_assoc, Iv, app_assoc. apply (r_items_cat _ _ _ _ _ _ _ Rd).
      change (ILex x :: iv) with ([ILex x] ++ iv).
      apply (r_items_cat _ [ILex x] [(x, rd_broken st)] st2' iv m' rst1); [|exact Ri1].
      apply r_lex_item; assumption.
    + destruct B2 as [a2 [O2 ->]]. rewrite I5 in O2.
      assert (a2 = []) as ->.
      { destruct a2 as [|? [|? ?]]; [reflexivity|discriminate|discriminate]. }
      cbn [app]. split; cbn [with_open rs_open rs_eats rs_pause rs_header at_rest rd_stack rd_eats rd_broken rd_header];
        try assumption; try reflexivity.
      * rewrite I6, enclosed_is_round. reflexivity.
      * auto.
    + discriminate.
Qed.

Lemma items_one p c a p' : LexSpec.see p c = Some (a, p') ->
  items_from p [c] = Some (lex_items a ++ break_of c p', p').
Proof. intros E. cbn [items_from]. rewrite E, app_nil_r. reflexivity. Qed.
Lemma items_comment c : forall t, ~ In LF c ->
  items_from (Inside LComment t) c = Some ([], Inside LComment (t ++ c)).
Proof.
  induction c as [|d c IH]; intros t N; [rewrite app_nil_r; reflexivity|].
  cbn [items_from LexSpec.see extend]. destruct (N.eqb_spec d LF) as [->|E]; [destruct N; left; reflexivity|].
  rewrite IH by (intros X; apply N; right; exact X). rewrite <- app_assoc. reflexivity.
Qed.
Lemma items_see_comment p c : lets no_char p -> LexSpec.is_comment c = true -> ~ In LF c ->
  items_from p c = Some (lex_items (held p), Inside LComment c).
Proof.
  intros L H N. destruct c as [|d c]; [discriminate|]. cbn [LexSpec.is_comment] in H.
  apply N.eqb_eq in H. subst d. rewrite items_enter.
  - cbn [items_from LexSpec.see]. change (begin HASH) with (Some (Inside LComment [HASH])). cbv iota.
    rewrite (items_comment c [HASH]) by (intros X; apply N; right; exact X).
    cbn [break_of map app]. rewrite app_nil_r. reflexivity.
  - destruct p as [|l t]; [exact I|]. destruct L as [C [M _]]. split; [exact C|apply hash_ends; assumption].
Qed.
Lemma comment_item st c : LexSpec.is_comment c = true -> r_items st [ILex c] = Some ([], st).
Proof. intros H. apply r_items_one. cbn [r_item]. rewrite H. reflexivity. Qed.

(** Comments, spaces and line breaks. *)
Lemma quiet_sim str s is M rst st q P ps (c : text) :
  sim str s is P M rst st -> lets no_char q -> follows P q ps ->
  LexSpec.is_comment c = true -> ~ In LF c -> to_line_end ps ->
  (str = true -> False) ->
  exists is1 P1, items_from P c = Some (is1, P1) /\ sim str s (is ++ is1) P1 M rst st /\
    follows P1 Between ps.
Proof.
  intros [Rd Rl Ss] Le [->|[-> [_ [c0 [-> H0]]]]] Hc Nc Te Ns.
  - exists (lex_items (held q)), (Inside LComment c). split; [exact (items_see_comment q c Le Hc Nc)|]. split.
    + split; [|exact Rl|intros Q; destruct (Ns Q)]. rewrite <- (app_nil_r M).
      exact (r_items_cat _ _ _ _ _ _ _ Rd (comment_item rst c Hc)).
    + right. split; [reflexivity|]. split; [exact Te|]. eauto.
  - exists [], (Inside LComment (c0 ++ c)). split; [exact (items_comment c c0 Nc)|].
    assert (H1 : LexSpec.is_comment (c0 ++ c) = true) by (destruct c0; [discriminate|exact H0]). split.
    + split; [|exact Rl|intros Q; destruct (Ns Q)]. rewrite app_nil_r.
      cbn [held lex_items map] in *. rewrite r_items_app in *.
      destruct (r_items r_start is) as [[m st0]|]; [|discriminate].
      rewrite (comment_item st0 c0 H0) in Rd. rewrite (comment_item st0 _ H1). exact Rd.
    + right. split; [reflexivity|]. split; [exact Te|]. eauto.
Qed.
Lemma spaces_sim str s is M rst st q P ps (c : char) (w : text) :
  sim str s is P M rst st -> lets no_char q -> follows P q (PSpace :: ps) ->
  Forall spacing (c :: w) -> (str = true -> False) ->
  exists is1 P1, items_from P (c :: w) = Some (is1, P1) /\ sim str s (is ++ is1) P1 M rst st /\
    follows P1 Between ps.
Proof.
  intros [Rd Rl Ss] Le [->|[-> [Te [c0 [-> H0]]]]] Sp Ns.
  - exists (lex_items (held q)), Between. split; [exact (items_spaces q c w Le Sp)|].
    split; [|left; reflexivity].
    split; [|exact Rl|intros Q; destruct (Ns Q)]. cbn [held lex_items map]. rewrite app_nil_r. exact Rd.
  - assert (Nl : ~ In LF (c :: w)).
    { intros Q. rewrite Forall_forall in Sp. destruct (Sp LF Q) as [X|X]; discriminate X. }
    exists [], (Inside LComment (c0 ++ c :: w)). split; [exact (items_comment _ c0 Nl)|].
    assert (H1 : LexSpec.is_comment (c0 ++ c :: w) = true) by (destruct c0; [discriminate|exact H0]). split.
    + split; [|exact Rl|intros Q; destruct (Ns Q)]. rewrite app_nil_r.
      cbn [held lex_items map] in *. rewrite r_items_app in *.
      destruct (r_items r_start is) as [[m st0]|]; [|discriminate].
      rewrite (comment_item st0 c0 H0) in Rd. rewrite (comment_item st0 _ H1). exact Rd.
    + right. split; [reflexivity|]. split; [exact Te|]. eauto.
Qed.
Lemma break_sim str s is M rst st q P ps (i : text) :
  sim str s is P M rst st -> lets no_char q -> follows P q ps ->
  Forall spacing i -> (str = true -> False) ->
  exists is1 rst1, items_from P (LF :: i) = Some (is1, Between) /\
    sim str s (is ++ is1) Between M rst1 (see_newline st).
Proof.
  intros [Rd Rl Ss] Le Fo Sp Ns.
  assert (S : LexSpec.see P LF = Some (held P, Between)).
  { destruct Fo as [->|[-> [_ [c0 [-> H0]]]]]; [exact (see_blank q LF Le eq_refl)|reflexivity]. }
  exists (lex_items (held P) ++ [IBreak]), (r_break rst). split.
  - change (LF :: i) with ([LF] ++ i). rewrite items_from_app, (items_one _ _ _ _ S), (items_between i Sp).
    cbn [break_of]. change (LF =? LF) with true. cbv iota. rewrite app_nil_r. reflexivity.
  - split; [|exact (related_break _ _ _ Rl)|intros Q; destruct (Ns Q)].
    cbn [held lex_items map]. rewrite app_nil_r, app_assoc, <- (app_nil_r M).
    refine (r_items_cat _ _ _ _ _ _ _ Rd _). reflexivity.
Qed.

Lemma rendered_items ps txt : rendered ps txt -> forall q L q' P str s is M rst st l stF,
  feeds feed_piece q ps = Some (L, q') -> marked q -> comments_closed ps -> Forall commented ps ->
  Forall bom_ok ps -> follows P q ps -> copies copy_piece FmtLineSpec.see st ps ->
  scan st ps = (l, stF) -> wordy str s (map fst l) -> calm l -> sim str s is P M rst st ->
  exists is1 P' l' rst', items_from P txt = Some (is1, P') /\ Forall2 same_marked l l' /\
    r_items r_start (is ++ is1 ++ lex_items (held P')) = Some (fold_left add_token l' M, rst') /\
    follows P' q' [].
Proof.
  induction 1 as [|w ps txt R IH|ps txt R IH|i ps txt Ii R IH];
    intros q L q' P str s is M rst st l stF F Mk Cl Co Bo Fo Cp Sc W Ca Sm.
  - cbn in F, Sc. injection F as <- <-. injection Sc as <- <-. exists [], P, [], rst.
    split; [reflexivity|]. split; [constructor|]. split; [exact (sim_read _ _ _ _ _ _ _ Sm)|exact Fo].
  - cbn [feeds feed_piece] in F. destruct (feed_word q w) as [[a q1]|] eqn:Fw; [|discriminate].
    destruct (feeds feed_piece q1 ps) as [[b q2]|] eqn:F2; [|discriminate]. injection F as <- <-.
    inversion Co as [|? ? Cw Co']; subst. inversion Bo as [|? ? Bw Bo']; subst.
    assert (Cl' : comments_closed ps) by (destruct w; try exact Cl; apply Cl).
    pose proof (feed_word_marked _ _ _ _ Mk Fw) as M1.
    cbn [copies] in Cp. destruct Cp as [Cpw Cp]. cbn [scan] in Sc.
    destruct (FmtLineSpec.see st (PWord w)) as [l1 st1] eqn:Sw. cbn [snd] in Cp.
    destruct (scan st1 ps) as [l2 st2] eqn:Sc2. injection Sc as <- <-.
    apply Forall_app in Ca. destruct Ca as [Ca1 Ca2]. rewrite map_app in W.
    assert (Al : forall s1, wordy true s1 (map fst l2) -> q1 <> Between).
    { intros s1 W1 ->. exact (no_gap ps _ _ _ _ _ s1 F2 Cp Sc2 Bo' W1). }
    assert (Goal1 : exists is1 P1 l1' str1 s1 rst1, items_from P (printed_word w) = Some (is1, P1) /\
      Forall2 same_marked l1 l1' /\ wordy str1 s1 (map fst l2) /\
      sim str1 s1 (is ++ is1) P1 (fold_left add_token l1' M) rst1 st1 /\ follows P1 q1 ps).
    { assert (Quiet : l1 = [] -> st1 = st -> q1 = Between ->
        (exists is1 P1, items_from P (printed_word w) = Some (is1, P1) /\
          sim str s (is ++ is1) P1 M rst st /\ follows P1 Between ps) ->
        exists is1 P1 l1' str1 s1 rst1, items_from P (printed_word w) = Some (is1, P1) /\
        Forall2 same_marked l1 l1' /\ wordy str1 s1 (map fst l2) /\
        sim str1 s1 (is ++ is1) P1 (fold_left add_token l1' M) rst1 st1 /\ follows P1 q1 ps).
      { intros -> -> -> [is1 [P1 [E1 [E2 E3]]]]. exists is1, P1, [], str, s, rst. cbn [fold_left].
        split; [exact E1|]. split; [constructor|]. split; [exact W|]. auto. }
      assert (Ns : l1 = [] -> q1 = Between -> str = true -> False).
      { intros -> E Q. subst str. exact (Al s W E). }
      destruct w as [t|c|[|n]|e|]; try discriminate Fw.
      - assert (P = q) as ->.
        { destruct Fo as [Fo|[_ [[] _]]]. exact Fo. }
        cbn [FmtLineSpec.see see_word] in Sw.
        destruct (token_sim q t a q1 str s is M rst st l1 st1 (map fst l2) Fw Mk Sm Sw W Ca1 Bw Al)
          as [is1 [str1 [s1 [rst1 [E1 [E2 E3]]]]]].
        exists is1, q1, l1, str1, s1, rst1. split; [exact E1|]. split.
        { clear. induction l1; constructor; [split; [reflexivity|left; reflexivity]|assumption]. }
        split; [exact E2|]. split; [exact E3|left; reflexivity].
      - cbn in Sw. injection Sw as <- <-. pose proof Fw as Fw'. apply settle_inv in Fw'.
        destruct Fw' as [_ [-> Le]]. destruct Cw as [Hc Nc].
        apply Quiet; try reflexivity.
        exact (quiet_sim str s is M rst st q P ps c Sm Le Fo Hc Nc (proj1 Cl) (Ns eq_refl eq_refl)).
      - cbn in Sw. injection Sw as <- <-. pose proof Fw as Fw'. apply settle_inv in Fw'.
        destruct Fw' as [_ [-> Le]]. apply Quiet; try reflexivity.
        cbn [printed_word repeat]. apply (spaces_sim str s is M rst st q P ps 32 (repeat 32 n)); try assumption.
        + destruct Fo as [Fo|[_ [[] _]]]. left. exact Fo.
        + constructor; [left; reflexivity|]. clear. induction n; constructor; [left; reflexivity|assumption].
        + auto.
      - assert (P = q) as ->.
        { destruct Fo as [Fo|[_ [[] _]]]. exact Fo. }
        cbn [FmtLineSpec.see see_word] in Sw. injection Sw as <- <-.
        destruct (verb_sim q e a q1 str s is M rst st (map fst l2) Fw Mk Sm Cpw W Ca1)
          as [is1 [l1' [rst1 [E1 [E2 [E3 E4]]]]]].
        exists is1, q1, l1', str, s, rst1. split; [exact E1|]. split; [exact E2|]. split; [exact E3|].
        split; [exact E4|left; reflexivity].
      - cbn in Sw. injection Sw as <- <-. pose proof Fw as Fw'. apply settle_inv in Fw'.
        destruct Fw' as [_ [-> Le]].
        destruct (break_sim str s is M rst st q P (PWord WBreak :: ps) [] Sm Le Fo ltac:(constructor)
                    ltac:(auto)) as [is1 [rst1 [E1 E2]]].
        exists is1, Between, [], str, s, rst1. split; [exact E1|]. split; [constructor|].
        split; [exact W|]. split; [exact E2|left; reflexivity]. }
    destruct Goal1 as [is1 [P1 [l1' [str1 [s1 [rst1 [E1 [E2 [E3 [E4 E5]]]]]]]]]].
    destruct (IH q1 b q2 P1 str1 s1 (is ++ is1) _ rst1 st1 l2 st2 F2 M1 Cl' Co' Bo' E5 Cp Sc2 E3 Ca2 E4)
      as [is2 [P2 [l2' [rst2 [G1 [G2 [G3 G4]]]]]]].
    exists (is1 ++ is2), P2, (l1' ++ l2'), rst2. rewrite items_from_app, E1, G1.
    split; [reflexivity|]. split; [apply Forall2_app; assumption|]. rewrite fold_left_app.
    rewrite <- !app_assoc in *. split; assumption.
  - cbn [feeds feed_piece] in F. destruct (settle q) as [[a q1]|] eqn:Fw; [|discriminate].
    destruct (feeds feed_piece q1 ps) as [[b q2]|] eqn:F2; [|discriminate]. injection F as <- <-.
    apply settle_inv in Fw. destruct Fw as [_ [-> Le]].
    inversion Co as [|? ? _ Co']; subst. inversion Bo as [|? ? _ Bo']; subst.
    cbn [comments_closed] in Cl. cbn [copies FmtLineSpec.see snd] in Cp. destruct Cp as [_ Cp].
    cbn [scan FmtLineSpec.see] in Sc. destruct (scan st ps) as [l2 st2] eqn:Sc2. injection Sc as <- <-.
    cbn [app] in *.
    destruct (spaces_sim str s is M rst st q P ps 32 [] Sm Le Fo) as [is1 [P1 [E1 [E2 E3]]]].
    { constructor; [left; reflexivity|constructor]. }
    { intros ->. exact (no_gap ps _ _ _ _ _ s F2 Cp Sc2 Bo' W). }
    destruct (IH Between b q2 P1 str s (is ++ is1) M rst st l2 st2 F2 I Cl Co' Bo' E3 Cp Sc2 W Ca E2)
      as [is2 [P2 [l2' [rst2 [G1 [G2 [G3 G4]]]]]]].
    exists (is1 ++ is2), P2, l2', rst2.
    pose proof (items_from_app (@cons char 32 (@nil char)) P txt) as Q. cbv beta in Q. rewrite E1, G1 in Q. split; [exact Q|]. split; [exact G2|].
    rewrite <- !app_assoc in *. split; assumption.
  - cbn [feeds feed_piece] in F. destruct (settle q) as [[a q1]|] eqn:Fw; [|discriminate].
    destruct (feeds feed_piece q1 ps) as [[b q2]|] eqn:F2; [|discriminate]. injection F as <- <-.
    apply settle_inv in Fw. destruct Fw as [_ [-> Le]].
    inversion Co as [|? ? _ Co']; subst. inversion Bo as [|? ? _ Bo']; subst.
    cbn [comments_closed] in Cl. cbn [copies FmtLineSpec.see snd] in Cp. destruct Cp as [_ Cp].
    cbn [scan FmtLineSpec.see] in Sc. destruct (scan (see_newline st) ps) as [l2 st2] eqn:Sc2.
    injection Sc as <- <-. cbn [app] in *.
    destruct (break_sim str s is M rst st q P (PNewline :: ps) i Sm Le Fo Ii) as [is1 [rst1 [E1 E2]]].
    { intros ->. exact (no_gap ps _ _ _ _ _ s F2 Cp Sc2 Bo' W). }
    destruct (IH Between b q2 Between str s (is ++ is1) M rst1 _ l2 st2 F2 I Cl Co' Bo' (or_introl eq_refl) Cp
                Sc2 W Ca E2) as [is2 [P2 [l2' [rst2 [G1 [G2 [G3 G4]]]]]]].
    exists (is1 ++ is2), P2, l2', rst2.
    pose proof (items_from_app (LF :: i) P txt) as Q. rewrite E1, G1 in Q. split; [exact Q|]. split; [exact G2|].
    rewrite <- !app_assoc in *. split; assumption.
Qed.

(** The whole output. *)
Theorem rendered_tokens ps txt L q l stF : rendered ps txt ->
  feeds feed_piece Between ps = Some (L, q) -> lets no_char q -> comments_closed ps ->
  Forall commented ps -> Forall bom_ok ps -> copies copy_piece FmtLineSpec.see reader_start ps ->
  scan reader_start ps = (l, stF) -> nested l -> calm l ->
  exists l', Forall2 same_marked l l' /\ tokens_of txt = Some l'.
Proof.
  intros R F Le Cl Co Bo Cp Sc Ne Ca.
  assert (W : wordy false [] (map fst l)).
  { rewrite <- (app_nil_r (map fst l)). apply (nested_wordy l Ne [] []). reflexivity. }
  assert (Sm : sim false [] [] Between [] r_start reader_start).
  { split; [reflexivity| |discriminate]. split; try reflexivity; try discriminate. exact SK_nil. }
  destruct (rendered_items ps txt R Between L q Between false [] [] [] r_start reader_start l stF
              F I Cl Co Bo (or_introl eq_refl) Cp Sc W Ca Sm) as [is1 [P' [l' [rst' [E1 [E2 [E3 E4]]]]]]].
  exists l'. split; [exact E2|]. unfold tokens_of, r_read, items. rewrite E1.
  assert (Te : the_end P' = Some (held P')).
  { destruct E4 as [->|[_ [_ [c [-> _]]]]]; [|reflexivity].
    destruct q as [|lx t]; [reflexivity|]. cbn [the_end held]. destruct Le as [-> _]. reflexivity. }
  rewrite Te. cbn [app] in E3. fold (lex_items (held P')). rewrite E3.
  fold (marked_lexemes l'). rewrite (nested_read l' (nested_same l Ne l' E2)). reflexivity.
Qed.
End Copied.
