(** Every layout of a node's document reads as the tidied node (C39). *)
From Coq Require Import List Arith Bool NArith Lia.
From Verif Require Import Text SettingsModel SyntaxKind DirectiveModel FmtTree IrModel
  TableModel FmtModel FmtSpec RReadSpec FmtLineSpec FmtProofs FmtRunProofs FmtListProofs FmtTidyProofs
  FmtLineRunProofs FmtLineListProofs.
Import ListNotations.

(** Assembling what is read of a concatenation. *)
Ltac rd_skip :=
  solve [ eassumption
        | match goal with H : forall st, reads st ?x [] st |- reads _ ?x _ _ => apply H end
        | apply quiet_ready;
          [ eassumption
          | first [ assumption | exact (ready_going _) | exact (ready_heading _)
                  | apply ready_rest; first [assumption | reflexivity] ] ] ].
Ltac rd :=
  lazymatch goal with
  | |- reads _ (_ ++ _) _ _ =>
    first [ eassumption | eapply reads_skip_l; [rd_skip | rd] | eapply reads_app; [eassumption | rd] ]
  | |- reads _ [] _ _ => apply reads_nil
  | |- reads _ _ _ _ => first [ eassumption | rd_skip ]
  end.
Ltac reading := rewrite <- ?app_assoc; eapply reads_eq; [rd | | reflexivity].
Ltac flags :=
  rewrite ?app_nil_r, <- ?app_assoc; cbn [app flag inline]; rewrite ?orb_false_r, ?app_nil_r.

(** * Trees *)

Lemma wider_refl c : wider c c.
Proof. destruct c; exact I. Qed.
Lemma wider_body c c' : wider c c' -> wider (body_context c) (body_context c').
Proof. destruct c, c'; cbn; tauto. Qed.
Lemma wider_round c : wider InRound c -> c = InRound.
Proof. destruct c; cbn; tauto. Qed.
Lemma body_wider c : wider (body_context c) c /\ wider (body_context c) InBraces.
Proof. destruct c; cbn; tauto. Qed.
Lemma enclosed_round s : enclosed s = true <-> context_of s = InRound.
Proof. destruct s as [|[] s]; cbn; split; congruence. Qed.

Lemma tame_wider (P : context -> context -> expr -> Prop) :
  (forall c0 c c' e, wider c c' -> P c0 c e -> P c0 c' e) ->
  forall e c0 c c', wider c c' -> tame P c0 c e -> tame P c0 c' e.
Proof.
  intros M.
  induction e as [n k ts|n op a IH|n l op r IHl IHr|n l op r IHl IHr|n l op r IHl IHr
    |n name ps b IHp IHb|n items IH|n a d IHa IHd|n v IH|n i t el IHc IHt IHe|n nl a IH
    |n v s b IHv IHs IHb|n i b IHc IHb|n b IH|n es IH|n b IH|n f args IHf IHa|n k rc items IH
    |n nm v sl IHn IHv|n nm IH] using expr_ind'; intros c0 c c' W [[D Pe] H];
    (split; [exact (conj D (M c0 c c' _ W Pe))|]); cbn [tame] in H |- *;
    pose proof (wider_body c c' W) as W'.
  all: try exact H.
  - destruct H as [Op [U T]]. split; [exact Op|]. split; [|exact (IH _ _ _ W T)].
    destruct U as [U|U]; [left; subst c; exact (wider_round c' W)|right; exact U].
  - destruct H as [Op [T1 T2]]. eauto.
  - destruct H as [Op [T1 T2]]. eauto.
  - destruct H as [Op [T1 [T2 U]]]. split; [exact Op|]. split; [exact (IHl _ _ _ W T1)|].
    split; [exact (IHr _ _ _ W T2)|].
    destruct U as [U|U]; [left; subst c; exact (wider_round c' W)|right; exact U].
  - destruct H as [Op [T1 T2]]. eauto.
  - destruct H as [T1 [T2 T3]]. split; [exact T1|]. split; [exact (IHt _ _ _ W' T2)|].
    destruct el as [e|]; [|exact I]. cbn [opt_all] in *. exact (IHe _ _ _ W T3).
  - destruct H as [U T]. split; [|exact (IH _ _ _ W' T)].
    destruct U as [U|U]; [left; subst c; exact (wider_round c' W)|right; exact U].
  - destruct H as [T1 [T2 T3]]. eauto.
  - destruct H as [T1 T2]. eauto.
  - eauto.
  - destruct H as [T1 [T2 U]]. split; [exact (IHf _ _ _ W T1)|]. split; [exact (IHa _ _ _ W T2)|].
    destruct U as [U|U]; [left; subst c; exact (wider_round c' W)|right; exact U].
Qed.

Lemma lines_nonempty e : shaped e -> sort_of e = SoExpr -> lines e <> [].
Proof.
  destruct e; intros Sh So; try discriminate; cbn [lines];
    try (intros E; symmetry in E; exact (app_cons_not_nil _ _ _ E)).
  - cbn [shaped] in Sh. destruct ts; [contradiction|discriminate].
  - destruct Sh as [_ [Sa _]]. destruct e2; try discriminate.
    intros E. symmetry in E. exact (app_cons_not_nil _ _ _ E).
Qed.

Section Reading.
Variable o : format_options.
Variable pc : doc -> option (list piece).
Hypothesis Cp : cell_printer pc.
Variable P : context -> context -> expr -> Prop.
Hypothesis Pw : forall c0 c c' e, wider c c' -> P c0 c e -> P c0 c' e.
Local Instance Cr : copy_rule := fun c e => copied o e /\ exists c0, P c0 c e.

Lemma tidy_nonempty p e e' :
  tidy o p e e' -> shaped e -> sort_of e = SoExpr -> lines e' <> [].
Proof.
  intros T Sh So. destruct T; try discriminate; try exact (lines_nonempty _ Sh So); cbn [lines];
    try (intros E; symmetry in E; exact (app_cons_not_nil _ _ _ E)).
  - cbn [shaped] in Sh. destruct H; [contradiction|discriminate].
  - destruct H. cbn [lines]. discriminate.
  - destruct Sh as [_ [Sa _]].
    assert (X : lines args' <> []).
    { destruct T2; try discriminate; cbn [lines].
      - destruct e; discriminate.
      - destruct H0. discriminate. }
    intros E. apply app_eq_nil in E. destruct E as [_ E]. contradiction.
Qed.

(** * The statement *)

Definition after (e : expr) (s : list delim) : reader :=
  match sort_of e with SoParams => going s | _ => at_rest s end.

Definition entry (anc : list frame) (st : reader) (e : expr) : Prop :=
  (enclosed (rd_stack st) = true -> sort_of e <> SoParams -> st = at_rest (rd_stack st)) /\
  match sort_of e with
  | SoParams => st = heading (rd_stack st) /\ can_have_directive anc = false
  | SoExpr =>
    rd_header st = false /\
    (ready st \/ (is_terminal e = true /\ n_lead (notes_of e) = []))
  | SoArgs | SoElse =>
    st = at_rest (rd_stack st) /\ (ready st \/ n_lead (notes_of e) = [])
  | _ => enclosed (rd_stack st) = true
  end.

Definition holdsL (e : expr) : Prop :=
  forall anc p fo m os st c0, agree anc p -> fits anc p fo e -> entry anc st e ->
    tame P c0 (context_of (rd_stack st)) e -> glay m (fmt o pc anc fo e) os ->
    showing (concl o p fo m e) st os (after e (rd_stack st)).

Lemma entry_lead anc st e : entry anc st e -> ready st \/ n_lead (notes_of e) = [].
Proof.
  intros [A B].
  assert (En : sort_of e <> SoParams -> enclosed (rd_stack st) = true -> ready st).
  { intros N E. rewrite (A E N). apply ready_rest, E. }
  destruct (sort_of e); try (left; apply En; [discriminate|exact B]).
  - destruct B as [_ [B|[_ B]]]; auto.
  - destruct B as [-> _]. left. reflexivity.
  - destruct B as [_ B]. exact B.
  - destruct B as [_ B]. exact B.
Qed.
(** An expression with parts. *)
Lemma entry_expr anc st e :
  entry anc st e -> sort_of e = SoExpr -> is_terminal e = false ->
  rd_header st = false /\ ready st.
Proof.
  intros [_ B] S T. rewrite S in B. destruct B as [H [R|[X _]]]; [auto|congruence].
Qed.
Lemma entry_inner anc st e :
  entry anc st e -> match sort_of e with SoParam | SoDefault | SoArg | SoName => True | _ => False end ->
  enclosed (rd_stack st) = true /\ st = at_rest (rd_stack st).
Proof.
  intros [A B] S.
  assert (E : enclosed (rd_stack st) = true) by (destruct (sort_of e); try contradiction; exact B).
  split; [exact E|]. apply A; [exact E|]. intros X. rewrite X in S. exact S.
Qed.

(** * Children *)

Lemma childL e anc p fo m os st {c0} :
  holdsL e -> sort_of e <> SoElse -> fo_braced fo = None ->
  (fo_table fo = Some true -> q_table p = true) -> agree anc p -> entry anc st e ->
  tame P c0 (context_of (rd_stack st)) e -> glay m (fmt o pc anc fo e) os ->
  exists e', tidy o p e e' /\ reads st os (flag (rd_broken st) (lines e')) (after e (rd_stack st)).
Proof.
  intros H N B T A I Tm L.
  destruct (H anc p fo m os st c0 A (fits_table anc p e fo N B T) I Tm L) as [e' [C E]].
  exists e'. split; [exact (concl_tidy o p fo m e e' N B C)|exact E].
Qed.

(** An expression at the start of a statement. *)
Lemma child_first e anc p fo m os st {c0} :
  holdsL e -> sort_of e = SoExpr -> fo_braced fo = None ->
  (fo_table fo = Some true -> q_table p = true) -> agree anc p ->
  rd_header st = false -> ready st ->
  (enclosed (rd_stack st) = true -> st = at_rest (rd_stack st)) ->
  tame P c0 (context_of (rd_stack st)) e -> glay m (fmt o pc anc fo e) os ->
  exists e', tidy o p e e' /\ reads st os (flag (rd_broken st) (lines e')) (at_rest (rd_stack st)).
Proof.
  intros H S B T A Hd R En Tm L.
  destruct (childL e anc p fo m os st (c0 := c0) H ltac:(congruence) B T A) as [e' [C E]]; try assumption.
  - split; [auto|]. rewrite S. auto.
  - exists e'. split; [exact C|]. unfold after in E. rewrite S in E. exact E.
Qed.
(** After a token that the expression goes on after. *)
Lemma child_going e anc p fo m os stk {c0} :
  holdsL e -> sort_of e = SoExpr -> fo_braced fo = None ->
  (fo_table fo = Some true -> q_table p = true) -> agree anc p ->
  tame P c0 (context_of stk) e -> glay m (fmt o pc anc fo e) os ->
  exists e', tidy o p e e' /\ reads (going stk) os (lines e') (at_rest stk).
Proof.
  intros H S B T A Tm L.
  destruct (child_first e anc p fo m os (going stk) (c0 := c0) H S B T A) as [e' [C E]];
    try assumption; try reflexivity.
  - intros En. exact (going_rest _ En).
  - exists e'. split; [exact C|]. cbn [rd_broken going rd_stack] in E.
    rewrite flag_false in E. exact E.
Qed.
(** Inside parentheses or brackets. *)
Lemma child_inner e anc p fo m os stk :
  holdsL e -> sort_of e <> SoElse -> sort_of e <> SoParams -> fo_braced fo = None ->
  (fo_table fo = Some true -> q_table p = true) -> agree anc p ->
  enclosed stk = true -> tame P InRound InRound e -> glay m (fmt o pc anc fo e) os ->
  exists e', tidy o p e e' /\ reads (at_rest stk) os (lines e') (at_rest stk).
Proof.
  intros H S S' B T A En Tm L.
  pose proof (ready_rest stk En) as R.
  destruct (childL e anc p fo m os (at_rest stk) (c0 := InRound) H S B T A) as [e' [C E]]; try assumption.
  - split; [reflexivity|]. destruct (sort_of e); try exact En; try contradiction;
      (split; [reflexivity|]; left; exact R).
  - cbn [rd_stack at_rest]. rewrite (proj1 (enclosed_round stk) En). exact Tm.
  - exists e'. split; [exact C|]. cbn [rd_broken at_rest rd_stack] in E.
    rewrite flag_false in E. unfold after in E. destruct (sort_of e); try contradiction; exact E.
Qed.

Lemma entry_header anc st e : entry anc st e -> sort_of e <> SoParams -> rd_header st = false.
Proof.
  intros [A B] N. destruct (sort_of e) eqn:S; try contradiction;
    try (rewrite (A B N); reflexivity).
  - apply B.
  - destruct B as [-> _]. reflexivity.
  - destruct B as [-> _]. reflexivity.
Qed.
Lemma suppressed_copied anc p e : agree anc p -> suppressed o anc e = true -> copied o e.
Proof.
  intros [_ [D _]] H. destruct (suppressed_asked o anc e p D H) as [[_ X]|X]; [left; exact X|].
  right. left. exact X.
Qed.
Lemma suppressed_showing anc p e st {c0} :
  agree anc p -> sort_of e <> SoParams -> entry anc st e -> P c0 (context_of (rd_stack st)) e ->
  suppressed o anc e = true ->
  tidy o p e e /\ after e (rd_stack st) = at_rest (rd_stack st) /\ copy_word st (WVerb e).
Proof.
  intros A N En Pe S. split; [exact (suppressed_tidy o anc p e A S)|]. split.
  - unfold after. destruct (sort_of e); try reflexivity. contradiction.
  - split; [exact (entry_header anc st e En N)|]. split; [exact (suppressed_copied anc p e A S)|].
    exists c0. exact Pe.
Qed.

(** * Leaves and operators *)

Lemma case_leafL n k ts : ts <> [] -> holdsL (ELeaf n k ts).
Proof.
  intros Ne anc p fo m os st c0 A _ En Tm H. cbn [fmt] in H. pose proof Tm as [Dg Tk].
  refine (node_soft_reads o anc _ _ _ m os st _ (entry_lead _ _ _ En) (proj1 Dg)
            (suppressed_showing anc p _ st A _ En (proj2 Dg)) _ H); [discriminate|].
  intros _ f F. exists (ELeaf n k (map norm_token ts)). split; [apply T_leaf, tokens_same|].
  exact (tokens_read m ts f st Ne Tk F).
Qed.

Lemma uncommented_has n : uncommented n -> has_comments n = false.
Proof. intros [A [B C]]. unfold has_comments. rewrite A, B, C. reflexivity. Qed.

Lemma case_unaryL n op a : holdsL a -> sort_of a = SoExpr -> holdsL (EUnary n op a).
Proof.
  intros IH S anc p fo m os st c0 A _ En Tm H. cbn [fmt] in H. pose proof Tm as [Dg [Op [Cm Ta]]].
  refine (node_soft_reads o anc _ _ _ m os st _ (entry_lead _ _ _ En) (proj1 Dg)
            (suppressed_showing anc p _ st A _ En (proj2 Dg)) _ H); [discriminate|]. clear H.
  intros _ f F. unfold rule_unary in F. split_lay F. split_lay F. split_lay F. lay_nil F.
  apply (continues_reads m op x st Op) in A0.
  assert (Sp : forall st, reads st x0 [] st) by (intros st0; exact (maybe_space_reads _ _ _ st0 A1)).
  assert (X : exists a', tidy o (p_unary op) a a' /\
                reads (going (rd_stack st)) x1 (lines a') (at_rest (rd_stack st))).
  { assert (C : forall u, glay m (fmt o pc (FUnary op :: anc) fo0 a) u ->
      exists a', tidy o (p_unary op) a a' /\
        reads (going (rd_stack st)) u (lines a') (at_rest (rd_stack st))).
    { intros u U. refine (child_going a (FUnary op :: anc) (p_unary op) fo0 m u (rd_stack st) IH S
                eq_refl _ (agree_unary _ _) Ta U). discriminate. }
    destruct Cm as [Cm|Cm].
    - apply enclosed_round in Cm. match type of A2 with glay _ (if ?b then _ else _) _ => destruct b end; [|exact (C _ A2)].
      apply soft_block_quiet in A2. destruct A2 as [u [v [w [U [V [W ->]]]]]].
      destruct (C v V) as [a' [T E]]. exists a'. split; [exact T|]. reading. flags. reflexivity.
    - rewrite (uncommented_has _ Cm) in A2. exact (C _ A2). }
  destruct X as [a' [T E]].
  exists (EUnary n (norm_token op) a'). split; [apply T_unary; [apply same_norm_token|exact T]|].
  unfold after. cbn [sort_of]. rewrite app_nil_r. reading. cbn [lines]. flags. reflexivity.
Qed.

Lemma case_extractL n l op r :
  shaped l -> holdsL l -> holdsL r -> sort_of l = SoExpr -> sort_of r = SoExpr ->
  holdsL (EExtract n l op r).
Proof.
  intros Sh IHl IHr Sl Sr anc p fo m os st c0 A _ En Tm H. cbn [fmt] in H.
  pose proof Tm as [Dg [Op [Tl Tr]]].
  destruct (entry_expr _ _ _ En eq_refl eq_refl) as [Hd Rd].
  refine (node_soft_reads o anc _ _ _ m os st _ (entry_lead _ _ _ En) (proj1 Dg)
            (suppressed_showing anc p _ st A _ En (proj2 Dg)) _ H); [discriminate|]. clear H.
  intros _ f F. unfold rule_sticky in F. apply glay_group in F. destruct F as [m' F].
  split_lay F. split_lay F. split_lay F. lay_nil F.
  assert (Ag : agree (FExtract :: anc) p_plain) by (apply agree_plain; reflexivity).
  destruct (child_first l (FExtract :: anc) p_plain fo0 m' x st IHl Sl eq_refl ltac:(discriminate)
              Ag Hd Rd (fun e => proj1 En e ltac:(discriminate)) Tl A0) as [l' [T1 E1]].
  destruct (child_going r (FExtract :: anc) p_plain fo0 m' x1 (rd_stack st) IHr Sr eq_refl
              ltac:(discriminate) Ag Tr A2) as [r' [T2 E2]].
  apply (continues_reads m' op x0 (at_rest (rd_stack st)) Op) in A1.
  exists (EExtract n l' (norm_token op) r'). split.
  - apply T_extract; try assumption. apply same_norm_token.
  - unfold after. cbn [sort_of]. rewrite app_nil_r. reading. cbn [lines].
    rewrite flag_app by exact (tidy_nonempty _ _ _ T1 Sh Sl). flags. reflexivity.
Qed.

Lemma case_namespaceL n l op r :
  shaped l -> holdsL l -> holdsL r -> sort_of l = SoExpr -> sort_of r = SoExpr ->
  holdsL (ENamespace n l op r).
Proof.
  intros Sh IHl IHr Sl Sr anc p fo m os st c0 A _ En Tm H. cbn [fmt] in H.
  pose proof Tm as [Dg [Op [Tl [Tr Cm]]]].
  destruct (entry_expr _ _ _ En eq_refl eq_refl) as [Hd Rd].
  refine (node_soft_reads o anc _ _ _ m os st _ (entry_lead _ _ _ En) (proj1 Dg)
            (suppressed_showing anc p _ st A _ En (proj2 Dg)) _ H); [discriminate|]. clear H.
  intros _ f F. unfold rule_sticky in F. apply glay_group in F. destruct F as [m' F].
  split_lay F. split_lay F. split_lay F. lay_nil F.
  assert (Ag : agree (FNamespace :: anc) p_plain) by (apply agree_plain; reflexivity).
  destruct (child_first l (FNamespace :: anc) p_plain fo0 m' x st IHl Sl eq_refl ltac:(discriminate)
              Ag Hd Rd (fun e => proj1 En e ltac:(discriminate)) Tl A0) as [l' [T1 E1]].
  apply (plain_reads m' op x0 (at_rest (rd_stack st)) Op) in A1.
  destruct (childL r (FNamespace :: anc) p_plain fo0 m' x1 (at_rest (rd_stack st)) (c0 := c0) IHr)
    as [r' [T2 E2]]; try assumption; try discriminate; try reflexivity.
  - congruence.
  - split; [reflexivity|]. rewrite Sr. split; [reflexivity|].
    destruct Cm as [Cm|[rn [k [ts [-> Ld]]]]].
    + left. apply ready_rest, enclosed_round, Cm.
    + right. split; [reflexivity|exact Ld].
  - unfold after in E2. rewrite Sr in E2.
    cbn [rd_broken at_rest rd_stack] in E2. rewrite flag_false in E2.
    exists (ENamespace n l' (norm_token op) r'). split.
    + apply T_namespace; try assumption. apply same_norm_token.
    + unfold after. cbn [sort_of]. rewrite app_nil_r. reading. cbn [lines].
      rewrite flag_app by exact (tidy_nonempty _ _ _ T1 Sh Sl). flags. reflexivity.
Qed.

(** ** Binary expressions *)

Lemma chain_piece_reads m pt os stk C :
  has_role RoContinues (tp_op pt) ->
  (forall u, glay m (tp_doc pt) u ->
     exists r', C r' /\ reads (going stk) u (lines r') (at_rest stk)) ->
  glay m (chain_piece pt) os ->
  exists r', C r' /\
    reads (at_rest stk) os (inline (norm_token (tp_op pt)) :: lines r') (at_rest stk).
Proof.
  intros Op G H. unfold chain_piece in H.
  split_lay H. split_lay H. split_lay H. split_lay H. split_lay H. split_lay H. lay_nil H.
  assert (X : x = []).
  { destruct (tp_enclosing pt) as [n|]; [|exact A].
    destruct (n_lead n) as [|? ?], (n_dang n) as [|? ?]; cbn [app glay] in A;
      try contradiction. exact A. }
  subst x. cbn [app].
  assert (Sp : forall st, reads st x0 [] st) by (intros st; exact (space_reads _ _ st A0)).
  assert (Tr : forall st, reads st x4 [] st).
  { intros st. destruct (tp_enclosing pt); [exact (trailing_reads _ _ _ st A4)|].
    cbn [glay] in A4. subst. apply reads_nil. }
  apply (continues_reads m _ x1 (at_rest stk) Op) in A1. apply line_quiet in A2.
  destruct (G _ A3) as [r' [Cr Er]]. exists r'. split; [exact Cr|].
  rewrite app_nil_r. reading. flags. reflexivity.
Qed.

Lemma spine_reads N l :
  (forall x, esize x < N -> shaped x -> holdsL x) ->
  forall anc p dl tail m x y st c0,
  esize l < N -> shaped l -> sort_of l = SoExpr -> agree anc p ->
  rd_header st = false -> ready st ->
  (enclosed (rd_stack st) = true -> st = at_rest (rd_stack st)) ->
  tame P c0 (context_of (rd_stack st)) l ->
  spine o pc anc l = (dl, tail) -> glay m dl x -> glay m (cat (map chain_piece tail)) y ->
  exists l', tidy o p l l' /\
    reads st (x ++ y) (flag (rd_broken st) (lines l')) (at_rest (rd_stack st)).
Proof.
  intros IH. induction l as [| | n l op r IHl IHr| | | | | | | | | | | | | | | | |] using expr_ind';
    intros anc p dl tail m x y st c0 Sz Sh So A Hd Rd En Tm Sp L1 L2;
    try (cbn [spine] in Sp; injection Sp as <- <-; cbn [map cat glay] in L2; subst y;
         rewrite app_nil_r;
         exact (child_first _ _ p fo0 m _ st (IH _ Sz Sh) So eq_refl ltac:(discriminate) A Hd Rd
                  En Tm L1)).
  cbn [spine] in Sp. destruct (is_chain_op op) eqn:EC.
  - destruct (spine o pc (FBinary op :: anc) l) as [dl' tail'] eqn:ES. injection Sp as <- <-.
    rewrite map_app in L2. apply glay_cat_app in L2. destruct L2 as [y1 [y2 [L2 [L3 ->]]]].
    cbn [map] in L3. split_lay L3. lay_nil L3.
    destruct Sh as [[Sl Shl] [Sr Shr]]. cbn [esize] in Sz. destruct Tm as [_ [Op [Tl Tr]]].
    destruct (IHl (FBinary op :: anc) (p_operand (q_eq p) op false) dl' tail' m x y1 st c0)
      as [l' [T1 E1]]; try assumption; [lia|apply agree_operand, A|].
    assert (G : forall u, glay m (fmt o pc (FBinary op :: anc) fo0 r) u ->
      exists r', tidy o (p_operand (q_eq p) op false) r r' /\
        reads (going (rd_stack st)) u (lines r') (at_rest (rd_stack st))).
    { intros u U. refine (child_going r (FBinary op :: anc) _ fo0 m u (rd_stack st) _ Sr eq_refl _
                            (agree_operand _ _ _ _ A) Tr U); [|discriminate].
      apply IH; [lia|exact Shr]. }
    destruct (chain_piece_reads m {| tp_op := op; tp_right := r;
                tp_doc := fmt o pc (FBinary op :: anc) fo0 r; tp_enclosing := Some n |} x0
                (rd_stack st) _ Op G A0) as [r' [T2 E2]].
    cbn [tp_op] in E2.
    exists (EBinary n l' (norm_token op) r'). split.
    + assert (NA : classify (t_kind op) <> Assignment)
        by (rewrite (classify_chain _ EC); discriminate).
      apply classify_not_assignment in NA. destruct NA as [N1 N2].
      apply (T_binary o p n l l' op (norm_token op) r r' false);
        [apply restyled_same; [assumption|assumption|apply same_norm_token]|discriminate|
         exact T1|exact T2].
    + rewrite app_nil_r, app_assoc. cbn [lines].
      rewrite flag_app by exact (tidy_nonempty _ _ _ T1 Shl Sl).
      exact (reads_app _ _ _ _ _ _ _ E1 E2).
  - injection Sp as <- <-. cbn [map cat glay] in L2. subst y. rewrite app_nil_r.
    exact (child_first _ _ p fo0 m _ st (IH _ Sz Sh) So eq_refl ltac:(discriminate) A Hd Rd
             En Tm L1).
Qed.

Lemma restyle_role anc op : has_role RoContinues op -> has_role RoContinues (restyle o anc op).
Proof.
  intros H. unfold restyle. destruct (kind_eqb (t_kind op) EQUAL).
  - destruct (o_assignment_style o); try exact H. reflexivity.
  - destruct (kind_eqb (t_kind op) ASSIGN); [|exact H].
    destruct (o_assignment_style o); try exact H.
    destruct (can_normalize_to_equal anc); [reflexivity|exact H].
Qed.

Lemma case_binaryL n l op r :
  (forall x, esize x < esize (EBinary n l op r) -> shaped x -> holdsL x) ->
  shaped (EBinary n l op r) -> holdsL (EBinary n l op r).
Proof.
  intros IH Sh anc p fo m os st c0 A Ft En Tm H. pose proof Sh as [[Sl Shl] [Sr Shr]].
  pose proof Tm as [Dg [Op [Tl Tr]]].
  destruct (entry_expr _ _ _ En eq_refl eq_refl) as [Hd Rd].
  assert (En' : enclosed (rd_stack st) = true -> st = at_rest (rd_stack st))
    by (intros e; apply (proj1 En e); discriminate).
  assert (Hl : holdsL l) by (apply IH; [cbn; lia|exact Shl]).
  assert (Hr : holdsL r) by (apply IH; [cbn; lia|exact Shr]).
  set (stk := rd_stack st) in *.
  assert (CL : forall m x, glay m (fmt o pc (FBinary op :: anc) fo0 l) x ->
    exists l', tidy o (p_operand (q_eq p) op false) l l' /\
      reads st x (flag (rd_broken st) (lines l')) (at_rest stk)).
  { intros m0 x X. refine (child_first l _ _ fo0 m0 x st Hl Sl eq_refl _ _ Hd Rd En' Tl X);
      [discriminate|]. apply agree_operand, A. }
  assert (CR : forall m x, glay m (fmt o pc (FBinary op :: anc) fo0 r) x ->
    exists r', tidy o (p_operand (q_eq p) op false) r r' /\
      reads (going stk) x (lines r') (at_rest stk)).
  { intros m0 x X. refine (child_going r _ _ fo0 m0 x stk Hr Sr eq_refl _ _ Tr X);
      [discriminate|]. apply agree_operand, A. }
  assert (Tn : classify (t_kind op) <> Assignment -> forall l' r',
    tidy o (p_operand (q_eq p) op false) l l' -> tidy o (p_operand (q_eq p) op false) r r' ->
    tidy o p (EBinary n l op r) (EBinary n l' (norm_token op) r')).
  { intros NA l' r' T1 T2. apply classify_not_assignment in NA. destruct NA as [N1 N2].
    apply (T_binary o p n l l' op (norm_token op) r r' false);
      [apply restyled_same; [assumption|assumption|apply same_norm_token]|discriminate|
       exact T1|exact T2]. }
  change (concl o p fo m (EBinary n l op r)) with (tidy o p (EBinary n l op r)).
  change (after (EBinary n l op r) stk) with (at_rest stk).
  assert (Sup : suppressed o anc (EBinary n l op r) = true ->
                tidy o p (EBinary n l op r) (EBinary n l op r) /\ at_rest stk = at_rest (rd_stack st) /\
                copy_word st (WVerb (EBinary n l op r)))
    by exact (suppressed_showing anc p (EBinary n l op r) st A ltac:(discriminate) En (proj2 Dg)).
  destruct (classify (t_kind op)) eqn:EC.
  - (* sticky *)
    cbn [fmt] in H. rewrite EC in H.
    refine (node_soft_reads o anc _ _ _ m os st _ (entry_lead _ _ _ En) (proj1 Dg) Sup _ H). clear H.
    intros _ f F. unfold rule_sticky in F. apply glay_group in F. destruct F as [m' F].
    split_lay F. split_lay F. split_lay F. lay_nil F.
    destruct (CL _ _ A0) as [l' [T1 E1]]. destruct (CR _ _ A2) as [r' [T2 E2]].
    apply (continues_reads m' op x0 (at_rest stk) Op) in A1.
    exists (EBinary n l' (norm_token op) r'). split; [apply Tn; [discriminate|assumption..]|].
    rewrite app_nil_r. reading. cbn [lines].
    rewrite flag_app by exact (tidy_nonempty _ _ _ T1 Shl Sl). flags. reflexivity.
  - (* assignment *)
    cbn [fmt] in H. rewrite EC in H.
    refine (node_soft_reads o anc _ _ _ m os st _ (entry_lead _ _ _ En) (proj1 Dg) Sup _ H). clear H.
    intros _ f F. unfold rule_assignment in F. apply glay_group in F. destruct F as [m' F].
    split_lay F. split_lay F. split_lay F. split_lay F. lay_nil F.
    destruct (CL _ _ A0) as [l' [T1 E1]].
    assert (Sp : forall st, reads st x0 [] st) by (intros s; exact (space_reads _ _ s A1)).
    apply (continues_reads m' _ x1 (at_rest stk) (restyle_role anc op Op)) in A2.
    assert (X : exists u v, quiet u /\ x2 = u ++ v /\
                glay m' (fmt o pc (FBinary op :: anc) (rhs_options o anc n op r) r) v).
    { destruct (persistent_assignment o op r).
      - apply glay_indent in A3. split_lay A3. do 2 eexists.
        split; [exact (line_quiet _ _ _ A4)|]. split; [reflexivity|exact A3].
      - split_lay A3. do 2 eexists.
        split; [exact (space_quiet _ _ A4)|]. split; [reflexivity|exact A3]. }
    destruct X as [u [v [U [-> V]]]].
    set (table := match fo_table (rhs_options o anc n op r) with Some b => b | None => false end).
    assert (TB : table = true -> assignment_op (t_kind op) = true /\ asked DTable p n).
    { intros T. split; [apply classify_assignment, EC|].
      unfold table, rhs_options in T.
      destruct (persistent_assignment o op r && is_binary r); [discriminate|].
      destruct r; try discriminate.
      destruct (has_directive DTable anc n) eqn:D; [|discriminate].
      destruct A as [_ [Qd _]]. apply (has_directive_asked DTable anc n p Qd), D. }
    destruct (child_going r (FBinary op :: anc) (p_operand (q_eq p) op table)
                (rhs_options o anc n op r) m' v stk (c0 := c0) Hr Sr) as [r' [T2 E2]].
    + unfold rhs_options. destruct (persistent_assignment o op r && is_binary r); [reflexivity|].
      destruct r; try reflexivity. destruct (has_directive DTable anc n && _); reflexivity.
    + intros E. unfold table. rewrite E. reflexivity.
    + apply agree_operand, A.
    + exact Tr.
    + exact V.
    + exists (EBinary n l' (norm_token (restyle o anc op)) r'). split.
      * apply (T_binary o p n l l' op _ r r' table);
          [apply restyle_restyled, A|exact TB|exact T1|exact T2].
      * rewrite app_nil_r. reading. cbn [lines].
        rewrite flag_app by exact (tidy_nonempty _ _ _ T1 Shl Sl). flags. reflexivity.
  - (* chain *)
    rewrite (fmt_chain o pc anc fo n l op r EC) in H.
    refine (node_soft_reads o anc _ _ _ m os st _ (entry_lead _ _ _ En) (proj1 Dg) Sup _ H). clear H.
    intros _ f F. destruct (spine o pc (FBinary op :: anc) l) as [dl tail] eqn:ES.
    unfold rule_chain in F. apply glay_group in F. destruct F as [m' F].
    split_lay F.
    assert (G : glay m' (cat (map chain_piece (tail ++ [ {| tp_op := op; tp_right := r;
              tp_doc := fmt o pc (FBinary op :: anc) fo0 r; tp_enclosing := None |} ]))) y)
      by (destruct (fo_left fo); [exact F|exact (glay_indent _ _ _ F)]).
    clear F. rewrite map_app in G. apply glay_cat_app in G. destruct G as [y1 [y2 [G1 [G2 ->]]]].
    cbn [map] in G2. split_lay G2. lay_nil G2.
    destruct (spine_reads (esize (EBinary n l op r)) l IH (FBinary op :: anc)
                (p_operand (q_eq p) op false) dl tail m' x y1 st c0) as [l' [T1 E1]];
      try assumption; [cbn; lia|apply agree_operand, A|].
    destruct (chain_piece_reads m' {| tp_op := op; tp_right := r;
                tp_doc := fmt o pc (FBinary op :: anc) fo0 r; tp_enclosing := None |} _ stk _
                Op (CR m') A1) as [r' [T2 E2]].
    cbn [tp_op] in E2.
    exists (EBinary n l' (norm_token op) r'). split; [apply Tn; [discriminate|assumption..]|].
    rewrite app_nil_r, app_assoc. cbn [lines].
    rewrite flag_app by exact (tidy_nonempty _ _ _ T1 Shl Sl).
    exact (reads_app _ _ _ _ _ _ _ E1 E2).
  - (* comparison *)
    cbn [fmt] in H. rewrite EC in H.
    refine (node_soft_reads o anc _ _ _ m os st _ (entry_lead _ _ _ En) (proj1 Dg) Sup _ H). clear H.
    intros _ f F. unfold rule_comparison in F. apply glay_group in F. destruct F as [m' F].
    split_lay F. split_lay F. split_lay F. split_lay F. lay_nil F.
    apply glay_indent in A3. split_lay A3. apply line_quiet in A4.
    assert (Sp : forall st, reads st x0 [] st) by (intros s; exact (space_reads _ _ s A1)).
    destruct (CL _ _ A0) as [l' [T1 E1]]. destruct (CR _ _ A3) as [r' [T2 E2]].
    apply (continues_reads m' op x1 (at_rest stk) Op) in A2.
    exists (EBinary n l' (norm_token op) r'). split; [apply Tn; [discriminate|assumption..]|].
    rewrite app_nil_r. reading. cbn [lines].
    rewrite flag_app by exact (tidy_nonempty _ _ _ T1 Shl Sl). flags. reflexivity.
  - (* no operator *)
    cbn [fmt] in H. rewrite EC in H.
    refine (node_soft_reads o anc _ _ _ m os st _ (entry_lead _ _ _ En) (proj1 Dg) Sup _ H).
    intros _ f [].
Qed.

(** ** Bodies *)

(** A body's document, read inside whatever is open. *)
Definition body_read (c : context) (m : mode) (d : doc) (C : expr -> Prop) : Prop :=
  forall stk u, context_of stk = c \/ context_of stk = InBraces -> glay m d u ->
    exists b', C b' /\ reads (going stk) u (lines b') (at_rest stk).

Lemma curly_close m x y stk l :
  reads (going (DCurly :: stk)) x l (at_rest (DCurly :: stk)) -> quiet y ->
  forall z, glay m (token_doc tRCURLY) z ->
  reads (going (DCurly :: stk)) (x ++ y ++ z) (l ++ [inline tRCURLY]) (at_rest stk).
Proof.
  intros X Y z Z. refine (reads_app _ _ _ _ _ _ _ X _).
  destruct (quiet_any (at_rest (DCurly :: stk)) y Y) as [Q|Q].
  - refine (reads_app _ _ _ _ _ [] _ Q _).
    exact (rcurly_reads m z (at_rest (DCurly :: stk)) stk eq_refl Z).
  - refine (reads_app _ _ _ _ _ [] _ Q _).
    exact (rcurly_reads m z (see_newline (at_rest (DCurly :: stk))) stk eq_refl Z).
Qed.

Lemma braces_read m d os st C :
  body_read (context_of (rd_stack st)) m d C -> glay m (in_braces d) os ->
  exists b', C b' /\
    reads st os (flag (rd_broken st) (lines (add_braces b'))) (at_rest (rd_stack st)).
Proof.
  intros G H. unfold in_braces in H. split_lay H. split_lay H. split_lay H. lay_nil H.
  apply block_quiet in A0. destruct A0 as [a [u [c [Na [U [Nc ->]]]]]].
  destruct (G (DCurly :: rd_stack st) u (or_intror eq_refl) U) as [b' [Cb Eb]]. exists b'. split; [exact Cb|].
  apply (lcurly_reads m x st) in A.
  pose proof (curly_close m u c (rd_stack st) _ Eb Nc x1 A1) as K.
  rewrite app_nil_r. reading. cbn [lines add_braces map statements concat]. flags. reflexivity.
Qed.
Lemma if_broken_read m d os stk C :
  body_read (context_of stk) m d C -> glay m (in_braces_if_broken d) os ->
  exists b', C b' /\
    reads (going stk) os (lines (match m with Flat => b' | Expanded => add_braces b' end))
      (at_rest stk).
Proof.
  intros G H. unfold in_braces_if_broken in H. split_lay H. split_lay H. split_lay H. lay_nil H.
  destruct m; cbn [glay] in A, A1.
  - apply soft_block_flat in A0. subst. cbn [app]. rewrite !app_nil_r.
    exact (G stk x0 (or_introl eq_refl) A0).
  - apply soft_block_quiet in A0. destruct A0 as [a [u [c [Na [U [Nc ->]]]]]].
    destruct (G (DCurly :: stk) u (or_intror eq_refl) U) as [b' [Cb Eb]]. exists b'. split; [exact Cb|].
    fold (token_doc tLCURLY) in A. fold (token_doc tRCURLY) in A1.
    apply (lcurly_reads Expanded x (going stk)) in A. cbn [rd_stack going rd_broken] in A.
    pose proof (curly_close Expanded u c stk _ Eb Nc x1 A1) as K.
    rewrite app_nil_r. reading. cbn [lines add_braces map statements concat]. flags. reflexivity.
Qed.

Definition body_in (w : bool) (b : expr) (stk : list delim) (os : list op) : Prop :=
  exists b', tidy_body o w b b' /\ reads (going stk) os (lines b') (at_rest stk).

Lemma bodyL_braced w m b d os stk :
  is_braced b = true -> body_read (context_of stk) m d (tidy o p_body b) -> glay m d os -> body_in w b stk os.
Proof.
  intros E G H. destruct (G stk os (or_introl eq_refl) H) as [b' [A B]]. exists b'. split; [|exact B].
  apply TB_braced; assumption.
Qed.
Lemma bodyL_force m b d os stk :
  is_braced b = false -> body_read (context_of stk) m d (tidy o p_body b) -> glay m (in_braces d) os ->
  body_in true b stk os.
Proof.
  intros E G H. destruct (braces_read m d os (going stk) _ G H) as [b' [A B]].
  cbn [rd_stack rd_broken going] in B. rewrite flag_false in B.
  exists (add_braces b'). split; [|exact B]. apply TB_wrap; assumption.
Qed.
Lemma bodyL_broken m b d os stk :
  is_braced b = false -> body_read (context_of stk) m d (tidy o p_body b) -> glay m (in_braces_if_broken d) os ->
  body_in (wflag IfGroupBreaks m) b stk os.
Proof.
  intros E G H. destruct (if_broken_read m d os stk _ G H) as [b' [A B]].
  eexists. split; [|exact B]. destruct m; [apply TB_plain|apply TB_wrap]; assumption.
Qed.

Lemma body_child b anc fr m {c0 c} :
  holdsL b -> sort_of b = SoExpr -> agree (fr :: anc) p_body -> tame P c0 (body_context c) b ->
  body_read c m (fmt o pc (fr :: anc) fo0 b) (tidy o p_body b).
Proof.
  intros IH S Ag T stk u K U.
  refine (child_going b (fr :: anc) p_body fo0 m u stk (c0 := c0) IH S eq_refl _ Ag _ U); [discriminate|].
  destruct K as [K|K]; rewrite K.
  - exact (tame_wider P Pw _ _ _ _ (proj1 (body_wider c)) T).
  - exact (tame_wider P Pw _ _ _ _ (proj2 (body_wider c)) T).
Qed.

Lemma loop_bodyL b m os fr anc stk {c0} :
  holdsL b -> sort_of b = SoExpr -> agree (fr :: anc) p_body ->
  tame P c0 (body_context (context_of stk)) b ->
  glay m (loop_body b (fmt o pc (fr :: anc) fo0 b)) os -> body_in true b stk os.
Proof.
  intros IH S Ag T H. pose proof (body_child b anc fr m IH S Ag T) as B.
  unfold loop_body in H. destruct (is_braced b) eqn:E.
  - exact (bodyL_braced true m b _ os stk E B H).
  - exact (bodyL_force m b _ os stk E B H).
Qed.

(** ** Functions *)

Lemma case_functionL n name ps b :
  holdsL ps -> holdsL b -> sort_of ps = SoParams -> sort_of b = SoExpr ->
  holdsL (EFunction n name ps b).
Proof.
  intros IHp IHb Sp Sb anc p fo m os st c0 A _ En Tm H. cbn [fmt] in H.
  pose proof Tm as [Dg [Nm [Tp Tb]]].
  refine (node_soft_reads o anc _ _ _ m os st _ (entry_lead _ _ _ En) (proj1 Dg)
            (suppressed_showing anc p _ st A _ En (proj2 Dg)) _ H); [discriminate|]. clear H.
  intros _ f F. unfold rule_function in F. apply glay_group in F. destruct F as [m' F].
  split_lay F. split_lay F. split_lay F. split_lay F. lay_nil F.
  apply (header_reads m' name x st Nm) in A0.
  assert (Spc : forall st, reads st x1 [] st) by (intros s; exact (space_reads _ _ s A2)).
  assert (G : exists m'', glay m'' (fmt o pc (FFunction false :: anc) fo0 ps) x0).
  { destruct (fo_grouped fo); [|exists m'; exact A1]. exists Flat.
    exact (glay_remove_soft _ _ _ A1). }
  destruct G as [m'' G].
  destruct (childL ps (FFunction false :: anc) p_plain fo0 m'' x0 (heading (rd_stack st)) (c0 := c0) IHp)
    as [ps' [T1 E1]]; try assumption; try discriminate; try reflexivity.
  - congruence.
  - apply agree_plain; reflexivity.
  - split; [congruence|]. rewrite Sp. split; reflexivity.
  - unfold after in E1. rewrite Sp in E1. cbn [rd_broken heading rd_stack] in E1.
    rewrite flag_false in E1.
    pose proof (body_child b anc (FFunction true) m' IHb Sb ltac:(apply agree_body; reflexivity) Tb)
      as B.
    assert (W : exists w, body_in w b (rd_stack st) x2 /\ (n_newline (notes_of b) = true -> w = true)).
    { unfold function_body in A3. destruct (is_braced b) eqn:Eb.
      - exists true. split; [|reflexivity]. exact (bodyL_braced true m' b _ x2 _ Eb B A3).
      - destruct (n_newline (notes_of b)).
        + exists true. split; [|reflexivity]. exact (bodyL_force m' b _ x2 _ Eb B A3).
        + eexists. split; [exact (bodyL_broken m' b _ x2 _ Eb B A3)|discriminate]. }
    destruct W as [w [[b' [T2 E2]] Nb]].
    exists (EFunction n (norm_token name) ps' b'). split.
    + apply (T_function o p n name _ ps ps' w b b'); try assumption. apply same_norm_token.
    + unfold after. cbn [sort_of]. rewrite app_nil_r. reading. cbn [lines]. flags. reflexivity.
Qed.

Lemma case_paramsL n l :
  (forall x, In x l -> holdsL x) -> (forall x, In x l -> sort_of x = SoParam) ->
  holdsL (EParams n l).
Proof.
  intros IH So anc p fo m os st c0 A _ En Tm H. cbn [fmt] in H. pose proof Tm as [_ Tl].
  pose proof En as [_ [Hst Dr]]. set (stk := rd_stack st) in *.
  clearbody stk. subst st.
  refine (node_reads o anc _ _ DNil _ m os (heading stk) _ (entry_lead _ _ _ En) _ _ _ H).
  { intros S. rewrite (not_suppressed o anc _ Dr) in S; [discriminate|exact I]. }
  { intros x X. exact X. }
  clear H. intros _ f F. change (after (EParams n l) stk) with (going stk).
  assert (O : forall x d, In (x, d) (map (fun x => (x, fmt o pc (FParamList :: anc) fo0 x)) l) ->
                shown (DHead :: stk) (tidy o p_plain) x d).
  { intros x d Ix. apply in_map_iff in Ix. destruct Ix as [y [E Iy]]. injection E as <- <-.
    intros m' u U. refine (child_inner y (FParamList :: anc) p_plain fo0 m' u (DHead :: stk)
                             (IH y Iy) _ _ eq_refl _ _ eq_refl _ U).
    - rewrite (So y Iy). discriminate.
    - rewrite (So y Iy). discriminate.
    - discriminate.
    - apply agree_plain; reflexivity.
    - exact (all_of_In _ _ _ Tl Iy). }
  destruct (match l with [] => true | _ => false end) eqn:EL.
  - destruct l; [|discriminate]. cbn [map rule_params] in F.
    split_lay F. split_lay F. split_lay F. lay_nil F.
    apply (lhead_reads m x stk) in A0. apply (rhead_reads m x1 stk) in A2.
    apply dangling_soft_quiet in A1.
    exists (EParams n []). split; [apply T_params; constructor|].
    rewrite app_nil_r. reading. reflexivity.
  - assert (F' : exists m', glay m' (cat [ token_doc tLPAREN;
        soft_block_indent (join_params true (map (fun x => (x, fmt o pc (FParamList :: anc) fo0 x)) l));
        token_doc tRPAREN ]) f).
    { destruct l; [discriminate|]. cbn [map rule_params] in F. apply glay_group in F. exact F. }
    clear F. destruct F' as [m' F]. split_lay F. split_lay F. split_lay F. lay_nil F.
    apply (lhead_reads m' x stk) in A0. apply (rhead_reads m' x1 stk) in A2.
    apply soft_block_quiet in A1. destruct A1 as [a [u [b [Na [U [Nb ->]]]]]].
    destruct (params_read (DHead :: stk) eq_refl (tidy o p_plain) m' _ _ _ O U) as [l' [Fl El]].
    assert (MF : map fst (map (fun x => (x, fmt o pc (FParamList :: anc) fo0 x)) l) = l)
      by (rewrite map_map; cbn [fst]; apply map_id).
    rewrite MF in Fl. unfold inner in El.
    exists (EParams n l'). split; [apply T_params, Fl|].
    rewrite app_nil_r. reading. cbn [lines]. flags. reflexivity.
Qed.

Lemma case_paramL n a d :
  holdsL a -> opt_all holdsL d -> sort_of a = SoExpr ->
  opt_all (fun x => sort_of x = SoDefault) d -> holdsL (EParam n a d).
Proof.
  intros IHa IHd Sa Sd anc p fo m os st c0 A _ En Tm H. cbn [fmt] in H. pose proof Tm as [Dg [Ta Td]].
  destruct (entry_inner _ _ _ En I) as [Ec Hst]. set (stk := rd_stack st) in *.
  clearbody stk. subst st.
  refine (node_soft_reads o anc _ _ _ m os (at_rest stk) _ (entry_lead _ _ _ En) (proj1 Dg)
            (suppressed_showing anc p _ (at_rest stk) A _ En (proj2 Dg)) _ H); [discriminate|]. clear H.
  intros _ f F. change (after (EParam n a d) stk) with (at_rest stk).
  assert (Ag : agree (FParam :: anc) p_plain) by (apply agree_plain; reflexivity).
  destruct d as [d|]; cbn [rule_param] in F.
  - split_lay F. split_lay F. split_lay F. lay_nil F.
    assert (Spc : forall st, reads st x0 [] st) by (intros s; exact (space_reads _ _ s A1)).
    cbn [opt_all] in IHd, Sd, Td.
    destruct (child_inner a (FParam :: anc) p_plain fo0 m x stk IHa) as [a' [T1 E1]];
      try assumption; try congruence; try discriminate; try reflexivity.
    destruct (child_inner d (FParam :: anc) p_plain fo0 m x1 stk IHd) as [d' [T2 E2]];
      try assumption; try congruence; try discriminate; try reflexivity.
    exists (EParam n a' (Some d')). split; [apply T_param; [exact T1|constructor; exact T2]|].
    rewrite app_nil_r. cbn [rd_broken at_rest]. rewrite flag_false.
    reading. cbn [lines opt_list]. flags. reflexivity.
  - destruct (child_inner a (FParam :: anc) p_plain fo0 m f stk IHa) as [a' [T1 E1]];
      try assumption; try congruence; try discriminate; try reflexivity.
    exists (EParam n a' None). split; [apply T_param; [exact T1|constructor]|].
    cbn [rd_broken at_rest]. rewrite flag_false. cbn [lines opt_list]. rewrite app_nil_r. exact E1.
Qed.

Lemma case_defaultL n v : holdsL v -> sort_of v = SoExpr -> holdsL (EDefault n v).
Proof.
  intros IH S anc p fo m os st c0 A _ En Tm H. cbn [fmt] in H. pose proof Tm as [Dg Tv].
  destruct (entry_inner _ _ _ En I) as [Ec Hst]. set (stk := rd_stack st) in *.
  clearbody stk. subst st.
  refine (node_soft_reads o anc _ _ _ m os (at_rest stk) _ (entry_lead _ _ _ En) (proj1 Dg)
            (suppressed_showing anc p _ (at_rest stk) A _ En (proj2 Dg)) _ H); [discriminate|]. clear H.
  intros _ f F. change (after (EDefault n v) stk) with (at_rest stk).
  unfold rule_default in F. split_lay F. split_lay F. split_lay F. lay_nil F.
  apply (continues_reads m tEQUAL x (at_rest stk) eq_refl) in A0.
  cbn [rd_stack at_rest rd_broken] in A0. rewrite (going_rest stk Ec) in A0.
  assert (Spc : forall st, reads st x0 [] st) by (intros s; exact (space_reads _ _ s A1)).
  destruct (child_inner v (FDefault :: anc) p_plain fo0 m x1 stk IH) as [v' [T1 E1]];
    try assumption; try congruence; try discriminate; try reflexivity.
  { apply agree_plain; reflexivity. }
  exists (EDefault n v'). split; [apply T_default, T1|].
  rewrite app_nil_r. reading. cbn [lines]. flags. reflexivity.
Qed.

Lemma case_nameL n v : holdsL v -> sort_of v = SoExpr -> holdsL (ENameClause n v).
Proof.
  intros IH S anc p fo m os st c0 A _ En Tm H. cbn [fmt] in H. pose proof Tm as [Dg Tv].
  destruct (entry_inner _ _ _ En I) as [Ec Hst]. set (stk := rd_stack st) in *.
  clearbody stk. subst st.
  refine (node_soft_reads o anc _ _ _ m os (at_rest stk) _ (entry_lead _ _ _ En) (proj1 Dg)
            (suppressed_showing anc p _ (at_rest stk) A _ En (proj2 Dg)) _ H); [discriminate|]. clear H.
  intros _ f F. change (after (ENameClause n v) stk) with (at_rest stk).
  unfold rule_name_clause in F. split_lay F. split_lay F. split_lay F. lay_nil F.
  apply (continues_reads m tEQUAL x1 (at_rest stk) eq_refl) in A2.
  cbn [rd_stack at_rest rd_broken] in A2. rewrite (going_rest stk Ec) in A2.
  assert (Spc : forall st, reads st x0 [] st) by (intros s; exact (space_reads _ _ s A1)).
  destruct (child_inner v (FNameClause :: anc) p_plain fo0 m x stk IH) as [v' [T1 E1]];
    try assumption; try congruence; try discriminate; try reflexivity.
  { apply agree_plain; reflexivity. }
  exists (ENameClause n v'). split; [apply T_name, T1|].
  rewrite app_nil_r. cbn [rd_broken at_rest]. rewrite flag_false.
  reading. cbn [lines]. flags. reflexivity.
Qed.

Lemma case_parenL n b : holdsL b -> sort_of b = SoExpr -> holdsL (EParen n b).
Proof.
  intros IH S anc p fo m os st c0 A _ En Tm H. cbn [fmt] in H. pose proof Tm as [Dg Tb].
  destruct (entry_expr _ _ _ En eq_refl eq_refl) as [Hd Rd]. set (stk := rd_stack st) in *.
  refine (node_soft_reads o anc _ _ _ m os st _ (entry_lead _ _ _ En) (proj1 Dg)
            (suppressed_showing anc p _ st A _ En (proj2 Dg)) _ H); [discriminate|]. clear H.
  intros _ f F. change (after (EParen n b) stk) with (at_rest stk).
  unfold rule_paren in F. split_lay F. split_lay F. split_lay F. lay_nil F.
  apply (lparen_reads m x st Hd) in A0. apply (rparen_reads m x1 stk) in A2.
  assert (X : exists u v w, quiet u /\ quiet w /\ x0 = u ++ v ++ w /\
              glay m (fmt o pc (FParen :: anc) fo0 b) v).
  { destruct (n_direct (notes_of b)).
    - apply block_quiet in A1. destruct A1 as [u [v [w [U [V [W E]]]]]].
      exists u, v, w. auto.
    - exists [], x0, []. split; [apply quiet_nil|]. split; [apply quiet_nil|].
      split; [rewrite app_nil_r; reflexivity|exact A1]. }
  destruct X as [u [v [w [U [W [-> V]]]]]].
  destruct (child_inner b (FParen :: anc) p_body fo0 m v (DRound :: stk) IH) as [b' [T E]];
    try assumption; try congruence; try discriminate; try reflexivity.
  { apply agree_body; reflexivity. }
  exists (EParen n b'). split; [apply T_paren, T|].
  rewrite app_nil_r. reading. cbn [lines]. flags. reflexivity.
Qed.

(** ** Statements *)

Lemma case_forL n v s b :
  holdsL v -> holdsL s -> holdsL b ->
  sort_of v = SoExpr -> sort_of s = SoExpr -> sort_of b = SoExpr -> holdsL (EFor n v s b).
Proof.
  intros IHv IHs IHb Sv Ss Sb anc p fo m os st c0 A _ En Tm H. cbn [fmt] in H.
  pose proof Tm as [Dg [Tv [Ts Tb]]]. set (stk := rd_stack st) in *.
  refine (node_soft_reads o anc _ _ _ m os st _ (entry_lead _ _ _ En) (proj1 Dg)
            (suppressed_showing anc p _ st A _ En (proj2 Dg)) _ H); [discriminate|]. clear H.
  intros _ f F. change (after (EFor n v s b) stk) with (at_rest stk).
  unfold rule_for in F. apply glay_group in F. destruct F as [m' F].
  split_lay F. split_lay F. split_lay F. split_lay F. split_lay F. split_lay F. split_lay F.
  split_lay F. split_lay F. split_lay F. split_lay F. lay_nil F.
  apply (header_reads m' tFOR x st eq_refl) in A0. apply (lhead_reads m' x1 stk) in A2.
  apply (continues_reads m' tIN x4 (at_rest (DHead :: stk)) eq_refl) in A5.
  change (going (rd_stack (at_rest (DHead :: stk)))) with (at_rest (DHead :: stk)) in A5.
  apply (rhead_reads m' x7 stk) in A8.
  assert (S1 : forall st, reads st x0 [] st) by (intros w; exact (space_reads _ _ w A1)).
  assert (S2 : forall st, reads st x3 [] st) by (intros w; exact (space_reads _ _ w A4)).
  assert (S3 : forall st, reads st x5 [] st) by (intros w; exact (space_reads _ _ w A6)).
  assert (S4 : forall st, reads st x8 [] st) by (intros w; exact (space_reads _ _ w A9)).
  assert (Ag : agree (FFor false :: anc) p_plain) by (apply agree_plain; reflexivity).
  destruct (child_inner v (FFor false :: anc) p_plain fo0 m' x2 (DHead :: stk) IHv)
    as [v' [T1 E1]]; try assumption; try congruence; try discriminate; try reflexivity.
  destruct (child_inner s (FFor false :: anc) p_plain fo0 m' x6 (DHead :: stk) IHs)
    as [s' [T2 E2]]; try assumption; try congruence; try discriminate; try reflexivity.
  destruct (loop_bodyL b m' x9 (FFor true) anc stk (c0 := c0) IHb Sb) as [b' [T3 E3]];
    [apply agree_body; reflexivity|exact Tb|exact A10|].
  exists (EFor n v' s' b'). split; [apply T_for; assumption|].
  rewrite app_nil_r. reading. cbn [lines]. flags. reflexivity.
Qed.

Lemma case_whileL n c b :
  holdsL c -> holdsL b -> sort_of c = SoExpr -> sort_of b = SoExpr -> holdsL (EWhile n c b).
Proof.
  intros IHc IHb Sc Sb anc p fo m os st c0 A _ En Tm H. cbn [fmt] in H.
  pose proof Tm as [Dg [Tc Tb]]. set (stk := rd_stack st) in *.
  refine (node_soft_reads o anc _ _ _ m os st _ (entry_lead _ _ _ En) (proj1 Dg)
            (suppressed_showing anc p _ st A _ En (proj2 Dg)) _ H); [discriminate|]. clear H.
  intros _ f F. change (after (EWhile n c b) stk) with (at_rest stk).
  unfold rule_while in F. apply glay_group in F. destruct F as [m' F].
  split_lay F. split_lay F. split_lay F. split_lay F. split_lay F. split_lay F. split_lay F.
  lay_nil F.
  apply (header_reads m' tWHILE x st eq_refl) in A0. apply (lhead_reads m' x1 stk) in A2.
  apply (rhead_reads m' x3 stk) in A4.
  assert (S1 : forall st, reads st x0 [] st) by (intros w; exact (space_reads _ _ w A1)).
  assert (S2 : forall st, reads st x4 [] st) by (intros w; exact (space_reads _ _ w A5)).
  apply glay_group in A3. destruct A3 as [m'' A3]. apply soft_block_quiet in A3.
  destruct A3 as [u [w [z [Nu [W [Nz ->]]]]]].
  destruct (child_inner c (FWhile false :: anc) p_plain fo0 m'' w (DHead :: stk) IHc)
    as [c' [T1 E1]]; try assumption; try congruence; try discriminate; try reflexivity.
  { apply agree_plain; reflexivity. }
  destruct (loop_bodyL b m' x5 (FWhile true) anc stk (c0 := c0) IHb Sb) as [b' [T3 E3]];
    [apply agree_body; reflexivity|exact Tb|exact A6|].
  exists (EWhile n c' b'). split; [apply T_while; assumption|].
  rewrite app_nil_r. reading. cbn [lines]. flags. reflexivity.
Qed.

Lemma case_repeatL n b : holdsL b -> sort_of b = SoExpr -> holdsL (ERepeat n b).
Proof.
  intros IHb Sb anc p fo m os st c0 A _ En Tm H. cbn [fmt] in H.
  pose proof Tm as [Dg Tb]. set (stk := rd_stack st) in *.
  refine (node_soft_reads o anc _ _ _ m os st _ (entry_lead _ _ _ En) (proj1 Dg)
            (suppressed_showing anc p _ st A _ En (proj2 Dg)) _ H); [discriminate|]. clear H.
  intros _ f F. change (after (ERepeat n b) stk) with (at_rest stk).
  unfold rule_repeat in F. apply glay_group in F. destruct F as [m' F].
  split_lay F. split_lay F. split_lay F. lay_nil F.
  apply (continues_reads m' tREPEAT x st eq_refl) in A0.
  assert (S1 : forall st, reads st x0 [] st) by (intros w; exact (space_reads _ _ w A1)).
  destruct (loop_bodyL b m' x1 FRepeat anc stk (c0 := c0) IHb Sb) as [b' [T3 E3]];
    [apply agree_body; reflexivity|exact Tb|exact A2|].
  exists (ERepeat n b'). split; [apply T_repeat; assumption|].
  rewrite app_nil_r. reading. cbn [lines]. flags. reflexivity.
Qed.

Lemma if_reads n c t el anc b m f st {c0} :
  (forall x, esize x < esize (EIf n c t el) -> shaped x -> holdsL x) ->
  shaped (EIf n c t el) -> tame P c0 (context_of (rd_stack st)) (EIf n c t el) ->
  (if_forced t el -> b = Force) ->
  glay m (rule_if b (fmt o pc (FIf SCond :: anc) fo0 c) t (fmt o pc (FIf SThen :: anc) fo0 t)
            match el with
            | Some x => Some (fmt o pc (FIf SElse :: anc) (fo_with_braced b) x)
            | None => None
            end) f ->
  exists w e', (b = Force -> w = true) /\ tidy_if o w (EIf n c t el) e' /\
    reads st f (flag (rd_broken st) (lines e')) (at_rest (rd_stack st)).
Proof.
  intros IH Sh Tm Bf F. destruct Sh as [[Sc Shc] [[St Sht] Se]]. destruct Tm as [_ [Tc [Tt Te]]].
  set (stk := rd_stack st) in *.
  unfold rule_if in F. apply glay_group in F. destruct F as [m' F].
  split_lay F. split_lay F. split_lay F. split_lay F. split_lay F. split_lay F. split_lay F.
  split_lay F. lay_nil F.
  apply (header_reads m' tIF x st eq_refl) in A. apply (lhead_reads m' x1 stk) in A1.
  apply (rhead_reads m' x3 stk) in A3.
  assert (S1 : forall st, reads st x0 [] st) by (intros w; exact (space_reads _ _ w A0)).
  assert (S2 : forall st, reads st x4 [] st) by (intros w; exact (space_reads _ _ w A4)).
  apply glay_group in A2. destruct A2 as [m'' A2]. apply soft_block_quiet in A2.
  destruct A2 as [u [w [z [Nu [W [Nz ->]]]]]].
  destruct (child_inner c (FIf SCond :: anc) p_plain fo0 m'' w (DHead :: stk)) as [c' [T1 E1]];
    try assumption; try congruence; try discriminate; try reflexivity.
  { apply IH; [cbn; lia|exact Shc]. }
  { apply agree_plain; reflexivity. }
  set (wf := wflag b m').
  assert (T : body_in wf t stk x5).
  { assert (B : body_read (context_of stk) m' (fmt o pc (FIf SThen :: anc) fo0 t) (tidy o p_body t)).
    { apply (body_child t anc (FIf SThen) m' (c0 := c0)); [apply IH; [cbn; lia|exact Sht]|exact St| |exact Tt].
      apply agree_body; reflexivity. }
    unfold if_body in A5. rewrite andb_false_r in A5. destruct (is_braced t) eqn:E.
    - exact (bodyL_braced wf m' t _ x5 stk E B A5).
    - unfold wf. destruct b.
      + exact (bodyL_force m' t _ x5 stk E B A5).
      + exact (bodyL_broken m' t _ x5 stk E B A5). }
  destruct T as [t' [T2 E2]].
  assert (EL : exists el', tidy_else o wf el el' /\
                 reads (at_rest stk) x6 (opt_list lines el') (at_rest stk)).
  { destruct el as [e|].
    - cbn [opt_all] in Se, Te. destruct Se as [Se She]. split_lay A6.
      assert (S3 : forall st, reads st x2 [] st) by (intros q; exact (space_reads _ _ q A2)).
      destruct e as [| | | | | | | | | |ne nl a| | | | | | | | |]; try discriminate.
      assert (He : holdsL (EElse ne nl a)) by (apply IH; [cbn; lia|exact She]).
      assert (Fe : fits (FIf SElse :: anc) p_plain (fo_with_braced b) (EElse ne nl a)).
      { split; [discriminate|]. split; [reflexivity|]. exists b. split; [reflexivity|].
        intros Ia. apply Bf. right. right. right. exists ne, nl, a. auto. }
      destruct (He (FIf SElse :: anc) p_plain (fo_with_braced b) m' y (at_rest stk) c0
                  (agree_plain (FIf SElse) anc eq_refl eq_refl eq_refl) Fe) as [e' [Ce Ee]].
      + split; [reflexivity|]. cbn [sort_of]. split; [reflexivity|].
        destruct Te as [_ [[Te|Te] _]]; [left; apply ready_rest, enclosed_round, Te|right; exact Te].
      + exact Te.
      + exact A6.
      + exists (Some e'). split; [exact Ce|]. cbn [opt_list].
        cbn [rd_broken at_rest] in Ee. rewrite flag_false in Ee.
        change (after (EElse ne nl a) (rd_stack (at_rest stk))) with (at_rest stk) in Ee.
        reading. reflexivity.
    - cbn [glay] in A6. subst. exists None. split; [constructor|apply reads_nil]. }
  destruct EL as [el' [T3 E3]].
  exists wf, (EIf n c' t' el'). split; [intros ->; reflexivity|]. split.
  - apply TI_if; try assumption. intros N. unfold wf. rewrite (Bf N). reflexivity.
  - rewrite app_nil_r. reading. cbn [lines]. flags. reflexivity.
Qed.

Lemma case_ifL n c t el :
  (forall x, esize x < esize (EIf n c t el) -> shaped x -> holdsL x) ->
  shaped (EIf n c t el) -> holdsL (EIf n c t el).
Proof.
  intros IH Sh anc p fo m os st c0 A [_ Ft] En Tm H. cbn [fmt] in H. pose proof Tm as [Dg _].
  pose proof (compute_force anc t el) as C.
  change (after (EIf n c t el) (rd_stack st)) with (at_rest (rd_stack st)).
  destruct Ft as [Ft|[Ft Dr]].
  - rewrite Ft in H. unfold concl. rewrite Ft.
    refine (node_soft_reads o anc _ _ _ m os st _ (entry_lead _ _ _ En) (proj1 Dg)
              (suppressed_showing anc p (EIf n c t el) st A ltac:(discriminate) En (proj2 Dg)) _ H). clear H.
    intros _ f F.
    destruct (if_reads n c t el anc _ m f st IH Sh Tm (fun i => C (or_intror i)) F)
      as [w [e' [W [T E]]]].
    exists e'. split; [|exact E]. apply (T_if o p w); [exact T|].
    intros Q. apply W, C. left. destruct A as [_ [_ Q']]. congruence.
  - rewrite Ft in H. unfold concl. rewrite Ft.
    refine (node_soft_reads o anc _ _ _ m os st _ (entry_lead _ _ _ En) (proj1 Dg) _ _ H).
    + intros S. rewrite (not_suppressed o anc _ Dr) in S; [discriminate|exact I].
    + clear H. intros _ f F.
      destruct (if_reads n c t el anc Force m f st IH Sh Tm (fun _ => eq_refl) F)
        as [w [e' [W [T E]]]].
      exists e'. split; [|exact E]. rewrite (W eq_refl) in T. exact T.
Qed.

Lemma case_elseL n nl a : holdsL a -> sort_of a = SoExpr -> holdsL (EElse n nl a).
Proof.
  intros IH S anc p fo m os st c0 A [_ [Dr [b [Fb Fi]]]] En Tm H. cbn [fmt] in H. rewrite Fb in H.
  pose proof Tm as [Dg [_ Ta]]. unfold concl. rewrite Fb.
  pose proof En as [_ [Hst _]]. set (stk := rd_stack st) in *.
  clearbody stk. subst st.
  refine (node_soft_reads o anc _ _ _ m os (at_rest stk) _ (entry_lead _ _ _ En) (proj1 Dg) _ _ H).
  { intros Su. rewrite (not_suppressed o anc _ Dr) in Su; [discriminate|exact I]. }
  clear H. intros _ f F. unfold rule_else in F.
  change (after (EElse n nl a) stk) with (at_rest stk).
  split_lay F. split_lay F. split_lay F. lay_nil F.
  apply (continues_reads m tELSE x (at_rest stk) eq_refl) in A0. cbn [rd_stack at_rest rd_broken] in A0.
  assert (S1 : forall st, reads st x0 [] st) by (intros w; exact (space_reads _ _ w A1)).
  assert (Ag : agree (FElse :: anc) p_body) by (apply agree_body; reflexivity).
  destruct (is_if a) eqn:Ei.
  - specialize (Fi eq_refl). subst b.
    destruct a as [| | | | | | | | |na c t el| | | | | | | | | |]; try discriminate.
    cbn [if_body is_braced is_if andb] in A2.
    destruct (IH (FElse :: anc) p_body (fo_with_braced Force) m x1 (going stk) c0 Ag) as [a' [Ca Ea]].
    + split; [discriminate|]. right. split; reflexivity.
    + split; [intros e _; exact (going_rest _ e)|]. cbn [sort_of].
      split; [reflexivity|left; reflexivity].
    + exact (tame_wider P Pw _ _ _ _ (proj1 (body_wider _)) Ta).
    + exact A2.
    + exists (EElse n nl a'). split; [apply TE_if; [reflexivity|exact Ca]|].
      cbn [rd_broken going rd_stack] in Ea. rewrite flag_false in Ea.
      change (after (EIf na c t el) stk) with (at_rest stk) in Ea.
      rewrite app_nil_r. reading. cbn [lines]. flags. reflexivity.
  - pose proof (body_child a anc FElse m IH S Ag Ta) as B.
    assert (T : body_in (wflag b m) a stk x1).
    { unfold if_body in A2. rewrite Ei in A2. cbn [andb] in A2. destruct (is_braced a) eqn:E.
      - exact (bodyL_braced _ m a _ x1 stk E B A2).
      - destruct b.
        + exact (bodyL_force m a _ x1 stk E B A2).
        + exact (bodyL_broken m a _ x1 stk E B A2). }
    destruct T as [a' [T1 E1]]. exists (EElse n nl a').
    split; [apply TE_body; assumption|].
    rewrite app_nil_r. reading. cbn [lines]. flags. reflexivity.
Qed.

(** ** Braces *)

Lemma case_bracedL n l :
  (forall x, esize x < esize (EBraced n l) -> shaped x -> holdsL x) ->
  shaped (EBraced n l) -> holdsL (EBraced n l).
Proof.
  intros IH Sh anc p fo m os st c0 A _ En Tm H. cbn [fmt] in H. pose proof Tm as [Dg Tl].
  destruct (entry_expr _ _ _ En eq_refl eq_refl) as [Hd Rd]. set (stk := rd_stack st) in *.
  assert (Hx : forall x, In x l -> holdsL x /\ sort_of x = SoExpr).
  { intros x Ix. pose proof (all_of_In _ _ _ Sh Ix) as [S1 S2]. split; [|exact S1].
    apply IH; [|exact S2]. pose proof (esize_In x l Ix). cbn. lia. }
  refine (node_reads o anc _ _ DNil _ m os st _ (entry_lead _ _ _ En)
            (suppressed_showing anc p _ st A _ En (proj2 Dg)) (fun x X => X) _ H); [discriminate|]. clear H.
  intros _ f F. change (after (EBraced n l) stk) with (at_rest stk).
  destruct (variant_of anc n l) as [| |inner|] eqn:EV; cbn [rule_braced] in F.
  - (* empty *)
    assert (l = []) as ->.
    { destruct l as [|e l]; [reflexivity|]. exfalso. cbn [variant_of] in EV.
      destruct e; try discriminate.
      destruct es as [|e0 [|? ?]]; destruct l; try discriminate;
        destruct e0; try discriminate. destruct (_ && _); discriminate. }
    split_lay F. split_lay F. lay_nil F.
    apply (lcurly_reads m x st) in A0. fold stk in A0.
    apply (rcurly_reads m x0 (going (DCurly :: stk)) stk eq_refl) in A1.
    exists (EBraced n []). split; [apply T_braced; constructor|].
    rewrite app_nil_r. reading. cbn [lines map statements]. flags. reflexivity.
  - (* comments only *)
    assert (l = []) as ->.
    { destruct l as [|e l]; [reflexivity|]. exfalso. cbn [variant_of] in EV.
      destruct e; try discriminate.
      destruct es as [|e0 [|? ?]]; destruct l; try discriminate;
        destruct e0; try discriminate. destruct (_ && _); discriminate. }
    split_lay F. split_lay F. split_lay F. lay_nil F.
    apply (lcurly_reads m x st) in A0. fold stk in A0. apply dangling_block_quiet in A1.
    apply (rcurly_reads m x1 (going (DCurly :: stk)) stk eq_refl) in A2.
    exists (EBraced n []). split; [apply T_braced; constructor|].
    rewrite app_nil_r. reading. cbn [lines map statements]. flags. reflexivity.
  - (* curly-curly *)
    destruct l as [|e l].
    { cbn [variant_of] in EV. destruct (n_dang n); discriminate. }
    cbn [variant_of] in EV. destruct e; try discriminate.
    destruct es as [|e0 [|? ?]]; destruct l; try discriminate; try (destruct e0; discriminate).
    destruct e0; try discriminate. destruct (kind_eqb k R_IDENTIFIER && _); [|discriminate].
    injection EV as <-.
    destruct (n_dang n0) eqn:ED; [|contradiction].
    apply glay_group in F. destruct F as [m' F].
    split_lay F. split_lay F. split_lay F. split_lay F. split_lay F. split_lay F. split_lay F.
    lay_nil F.
    apply (leading_reads _ _ _ st (or_introl Rd)) in A0.
    assert (S1 : forall st, reads st x5 [] st) by (intros w; exact (trailing_reads _ _ _ w A6)).
    apply (lcurly_reads m' x0 st) in A1. fold stk in A1.
    apply (lcurly_reads m' x1 (going (DCurly :: stk))) in A2.
    apply (rcurly_reads m' x4 (at_rest (DCurly :: stk)) stk eq_refl) in A5.
    apply soft_space_quiet in A3. destruct A3 as [a [u [b [Na [U [Nb ->]]]]]].
    set (x9 := ELeaf n1 k ts) in *.
    destruct Sh as [[_ [[_ Sh9] _]] _].
    destruct (child_going x9 (FBracedList true :: FBracedList true :: anc) (p_stmt false) fo0 m' u
                (DCurly :: DCurly :: stk) (c0 := InBraces) (case_leafL n1 k ts Sh9)) as [y [Ty Ey]];
      try discriminate; try reflexivity.
    { apply (agree_stmt (FBracedList true :: anc) false). }
    { destruct Tl as [[_ [T9 _]] _]. exact T9. }
    { exact U. }
    pose proof (curly_close m' u b (DCurly :: stk) _ Ey Nb x3 A4) as K.
    exists (EBraced n [EBraced n0 [y]]). split.
    + apply T_braced. constructor; [|constructor]. apply T_braced.
      constructor; [exact Ty|constructor].
    + cbn [rd_stack going] in A2.
      assert (K' : reads (going (DCurly :: DCurly :: stk)) ((a ++ u ++ b) ++ x3)
                     (lines y ++ [inline tRCURLY]) (at_rest (DCurly :: stk))).
      { rewrite <- !app_assoc. reading. reflexivity. }
      rewrite app_nil_r.
      eapply reads_eq.
      * eapply reads_skip_l; [exact A0|]. eapply reads_app; [exact A1|].
        eapply reads_app; [exact A2|]. rewrite app_assoc. eapply reads_app; [exact K'|].
        eapply reads_app; [exact A5|]. apply S1.
      * cbn [lines map statements concat]. rewrite !app_nil_r. cbn [app rd_broken going].
        flags. reflexivity.
      * reflexivity.
  - (* not empty *)
    assert (Ne : l <> []).
    { intros ->. cbn [variant_of] in EV. destruct (n_dang n); discriminate. }
    unfold in_braces in F. split_lay F. split_lay F. split_lay F. lay_nil F.
    apply (lcurly_reads m x st) in A0. fold stk in A0.
    apply block_quiet in A1. destruct A1 as [a [u [b [Na [U [Nb ->]]]]]].
    unfold rule_expression_list in U.
    destruct (stmts_read (DCurly :: stk) eq_refl (fun b => tidy o (p_stmt b))
                (fun last x => fmt o pc (FBracedList last :: anc) fo0 x) false m
                (going (DCurly :: stk)) l u) as [l' [Fl El]]; try assumption; try reflexivity.
    { intros b0 x2 Ix m0 u0 st0 Sk0 Hd0 Rd0 U0. destruct (Hx x2 Ix) as [Hh Hs].
      rewrite <- Sk0.
      refine (child_first x2 _ (p_stmt b0) fo0 m0 u0 st0 Hh Hs eq_refl _ (agree_stmt anc b0) Hd0
                Rd0 _ _ U0); [discriminate| |].
      - rewrite Sk0. discriminate.
      - rewrite Sk0. exact (all_of_In _ _ _ Tl Ix). }
    pose proof (curly_close m u b stk _ El Nb x1 A2) as K.
    exists (EBraced n l'). split; [apply T_braced, Fl|].
    rewrite app_nil_r. reading. cbn [lines]. flags. reflexivity.
Qed.

(** ** Calls *)

Lemma case_callL n f args :
  shaped f -> holdsL f -> holdsL args -> sort_of f = SoExpr -> sort_of args = SoArgs ->
  holdsL (ECall n f args).
Proof.
  intros Sh IHf IHa Sf Sa anc p fo m os st c0 A [Ft _] En Tm H. cbn [fmt] in H.
  pose proof Tm as [Dg [Tf [Ta Cm]]].
  destruct (entry_expr _ _ _ En eq_refl eq_refl) as [Hd Rd].
  assert (En' : enclosed (rd_stack st) = true -> st = at_rest (rd_stack st))
    by (intros e; apply (proj1 En e); discriminate).
  set (stk := rd_stack st) in *.
  refine (node_soft_reads o anc _ _ _ m os st _ (entry_lead _ _ _ En) (proj1 Dg)
            (suppressed_showing anc p _ st A _ En (proj2 Dg)) _ H); [discriminate|]. clear H.
  intros _ u F. change (after (ECall n f args) stk) with (at_rest stk). split_lay F.
  destruct (child_first f (FCall :: anc) p_plain fo0 m x st IHf Sf eq_refl ltac:(discriminate)
              ltac:(apply agree_plain; reflexivity) Hd Rd En' Tf A0) as [f' [T1 E1]].
  fold stk in E1.
  set (fo' := call_options o anc n fo f args) in *.
  set (table := match fo_table fo' with Some b => b | None => false end).
  assert (TB : table = true -> table_asked o p n f).
  { unfold table, fo', call_options. cbn [fo_table fo_with_table]. intros T.
    apply andb_true_iff in T. destruct T as [_ T]. unfold table_asked.
    destruct (fo_table fo) as [[]|]; [left; apply Ft; reflexivity|discriminate|].
    apply orb_true_iff in T. destruct T as [T|T].
    - right. left. destruct A as [_ [Qd _]]. apply (has_directive_asked DTable anc n p Qd), T.
    - right. right. apply in_setting_listed, T. }
  destruct (childL args (FCall :: anc) (mkpos false false false table) fo' m y (at_rest stk) (c0 := c0) IHa)
    as [a' [T2 E2]].
  - congruence.
  - reflexivity.
  - intros E. unfold table. rewrite E. reflexivity.
  - repeat split.
  - split; [reflexivity|]. rewrite Sa. split; [reflexivity|].
    destruct Cm as [Cm|Cm]; [left; apply ready_rest, enclosed_round, Cm|right; exact Cm].
  - exact Ta.
  - exact F.
  - unfold after in E2. rewrite Sa in E2. cbn [rd_broken at_rest rd_stack] in E2.
    rewrite flag_false in E2.
    exists (ECall n f' a'). split; [apply (T_call o p n f f' args a' table); assumption|].
    cbn [lines]. rewrite flag_app by exact (tidy_nonempty _ _ _ T1 Sh Sf).
    exact (reads_app _ _ _ _ _ _ _ E1 E2).
Qed.

Lemma arg_fieldsL anc n nm v sl m os stk :
  enclosed stk = true -> opt_all holdsL nm -> opt_all holdsL v ->
  opt_all (fun x => sort_of x = SoName) nm -> opt_all (fun x => sort_of x = SoExpr) v ->
  opt_all (tame P InRound InRound) nm -> opt_all (tame P InRound InRound) v ->
  glay m (argument_fields
            match nm with Some c => Some (fmt o pc (FArg :: anc) fo0 c) | None => None end
            match v with Some v => Some (fmt o pc (FArg :: anc) fo0 v) | None => None end) os ->
  exists e', tidy o p_item (EArg n nm v sl) e' /\
    (forall p, tidy o p (EArg n nm v sl) e') /\
    reads (at_rest stk) os (lines e') (at_rest stk).
Proof.
  intros Ec Hn Hv Sn Sv Tn Tv H.
  assert (Ag : agree (FArg :: anc) p_plain) by (apply agree_plain; reflexivity).
  assert (G : exists nm' v', opt_rel (tidy o p_plain) nm nm' /\ opt_rel (tidy o p_plain) v v' /\
    reads (at_rest stk) os (opt_list lines nm' ++ opt_list lines v') (at_rest stk)).
  { destruct nm as [c|], v as [v|]; cbn [argument_fields opt_all] in *.
    - split_lay H. split_lay H. split_lay H. lay_nil H.
      assert (S1 : forall st, reads st x0 [] st) by (intros w; exact (space_reads _ _ w A0)).
      destruct (child_inner c (FArg :: anc) p_plain fo0 m x stk Hn) as [c' [T1 E1]];
        try assumption; try congruence; try discriminate; try reflexivity.
      destruct (child_inner v (FArg :: anc) p_plain fo0 m x1 stk Hv) as [v' [T2 E2]];
        try assumption; try congruence; try discriminate; try reflexivity.
      exists (Some c'), (Some v'). split; [constructor; exact T1|]. split; [constructor; exact T2|].
      cbn [opt_list]. rewrite app_nil_r. reading. reflexivity.
    - split_lay H. split_lay H. lay_nil H.
      assert (S1 : forall st, reads st x0 [] st) by (intros w; exact (space_reads _ _ w A0)).
      destruct (child_inner c (FArg :: anc) p_plain fo0 m x stk Hn) as [c' [T1 E1]];
        try assumption; try congruence; try discriminate; try reflexivity.
      exists (Some c'), None. split; [constructor; exact T1|]. split; [constructor|].
      cbn [opt_list]. rewrite app_nil_r. reading. flags. reflexivity.
    - destruct (child_inner v (FArg :: anc) p_plain fo0 m os stk Hv) as [v' [T2 E2]];
        try assumption; try congruence; try discriminate; try reflexivity.
      exists None, (Some v'). split; [constructor|]. split; [constructor; exact T2|]. exact E2.
    - cbn [glay] in H. subst. exists None, None. split; [constructor|]. split; [constructor|].
      apply reads_nil. }
  destruct G as [nm' [v' [Rn [Rv E]]]]. exists (EArg n nm' v' sl).
  split; [apply T_arg; assumption|]. split; [intros q; apply T_arg; assumption|]. exact E.
Qed.

Lemma case_argL n nm v sl :
  opt_all holdsL nm -> opt_all holdsL v ->
  opt_all (fun x => sort_of x = SoName) nm -> opt_all (fun x => sort_of x = SoExpr) v ->
  holdsL (EArg n nm v sl).
Proof.
  intros Hn Hv Sn Sv anc p fo m os st c0 A _ En Tm H. cbn [fmt] in H. pose proof Tm as [Dg [Tn Tv]].
  destruct (entry_inner _ _ _ En I) as [Ec Hst]. set (stk := rd_stack st) in *.
  clearbody stk. subst st.
  refine (node_soft_reads o anc _ _ _ m os (at_rest stk) _ (entry_lead _ _ _ En) (proj1 Dg)
            (suppressed_showing anc p _ (at_rest stk) A _ En (proj2 Dg)) _ H); [discriminate|]. clear H.
  intros _ f F. change (after (EArg n nm v sl) stk) with (at_rest stk).
  destruct (arg_fieldsL anc n nm v sl m f stk Ec Hn Hv Sn Sv Tn Tv F) as [e' [_ [T E]]].
  exists e'. split; [apply T|]. cbn [rd_broken at_rest]. rewrite flag_false. exact E.
Qed.

Lemma case_argsL n k rc items :
  (forall x, esize x < esize (EArgs n k rc items) -> shaped x -> holdsL x) ->
  shaped (EArgs n k rc items) -> holdsL (EArgs n k rc items).
Proof.
  intros IH Sh anc p fo m os st c0 A [Ft _] En Tm H. rewrite fmt_args in H. pose proof Tm as [Dg Tl].
  pose proof En as [_ [Hst Ld]]. cbn [notes_of] in Ld. set (stk := rd_stack st) in *.
  clearbody stk. subst st.
  refine (node_reads o anc _ _ DNil _ m os (at_rest stk) _ (entry_lead _ _ _ En)
            (suppressed_showing anc p _ (at_rest stk) A _ En (proj2 Dg)) (fun x X => X) _ H); [discriminate|]. clear H.
  intros _ f F. change (after (EArgs n k rc items) stk) with (at_rest stk).
  set (infos := map (arg_info o pc anc) items) in *.
  assert (Nodes : map ai_node infos = items).
  { unfold infos. rewrite map_map. cbn [arg_info ai_node]. apply map_id. }
  assert (Inf : forall i, In i infos -> exists x, In x items /\ i = arg_info o pc anc x).
  { intros i Ii. apply in_map_iff in Ii. destruct Ii as [x [E Ix]]. exists x. auto. }
  clearbody infos.
  assert (It : forall x, In x items -> exists nx nm v sl, x = EArg nx nm v sl /\
    opt_all holdsL nm /\ opt_all holdsL v /\ opt_all (fun x => sort_of x = SoName) nm /\
    opt_all (fun x => sort_of x = SoExpr) v /\ holdsL x /\
    opt_all (tame P InRound InRound) nm /\ opt_all (tame P InRound InRound) v).
  { intros x Ix. pose proof (all_of_In _ _ _ Sh Ix) as [S1 S2].
    pose proof (all_of_In _ _ _ Tl Ix) as Tx.
    pose proof (esize_In x items Ix) as Sz.
    destruct x as [| | | | | | | | | | | | | | | | | |nx nm v sl|]; try discriminate.
    exists nx, nm, v, sl. split; [reflexivity|]. destruct S2 as [S2 S3].
    destruct Tx as [_ [Tx1 Tx2]].
    cbn [esize] in Sz. assert (L : esize (EArg nx nm v sl) < esize (EArgs n k rc items))
      by (cbn [esize]; lia).
    split; [|split; [|split; [|split; [|split; [|split]]]]].
    - destruct nm as [c|]; [|exact I]. destruct S2 as [_ S2]. apply IH; [|exact S2].
      cbn [esize] in L |- *. lia.
    - destruct v as [v|]; [|exact I]. destruct S3 as [_ S3]. apply IH; [|exact S3].
      cbn [esize] in L |- *. lia.
    - destruct nm; [apply S2|exact I].
    - destruct v; [apply S3|exact I].
    - apply IH; [exact L|]. split; assumption.
    - exact Tx1.
    - exact Tx2. }
  set (R := tidy o p_item).
  set (inn := DRound :: stk).
  assert (Ok : Forall (arg_shown inn R) (with_seps infos)).
  { apply Forall_forall. intros a Ia. apply in_with_seps in Ia.
    destruct (Inf _ Ia) as [x [Ix E]]. unfold arg_shown. rewrite E.
    cbn [arg_info ai_node ai_doc].
    destruct (It x Ix) as [nx [nm [v [sl [Ex [Hn [Hv [Sn [Sv [Hx [Tn Tv]]]]]]]]]]].
    intros m' u U. refine (child_inner x _ p_item fo0 m' u inn Hx _ _ eq_refl _ _ eq_refl
                             (all_of_In _ _ _ Tl Ix) U).
    - rewrite Ex. discriminate.
    - rewrite Ex. discriminate.
    - discriminate.
    - repeat split. }
  assert (La : infos <> [] -> group_last (map ai_node infos) = true ->
               last_shown inn R (with_seps infos)).
  { intros _ G a d La E. apply last_opt_with_seps in La.
    pose proof (last_opt_In _ _ La) as Ia. destruct (Inf _ Ia) as [x [Ix Ei]].
    destruct (It x Ix) as [nx [nm [v [sl [Ex [Hn [Hv [Sn [Sv [Hx [Tn Tv]]]]]]]]]]]. subst x.
    rewrite Ei in E |- *. cbn [arg_info ai_node ai_function] in E |- *.
    destruct v as [v|]; [|discriminate]. destruct v; try discriminate. injection E as <-.
    set (v := EFunction n0 name v1 v2) in *. intros m' u U.
    split_lay U. split_lay U. lay_nil U.
    assert (Ag : agree (FArg :: FArgList :: anc) p_plain) by (apply agree_plain; reflexivity).
    cbn [opt_all] in Hv, Sv, Tv.
    destruct (child_inner v (FArg :: FArgList :: anc) p_plain fo_with_grouped m' x0 inn Hv)
      as [v' [T2 E2]]; try assumption; try congruence; try discriminate; try reflexivity.
    assert (C : exists nm', opt_rel (tidy o p_plain) nm nm' /\
                  reads (at_rest inn) x (opt_list lines nm') (at_rest inn)).
    { destruct nm as [c|].
      - split_lay A0. cbn [opt_all] in Hn, Sn, Tn.
        assert (S1 : forall st, reads st y [] st) by (intros w; exact (space_reads _ _ w A0)).
        destruct (child_inner c (FArg :: FArgList :: anc) p_plain fo0 m' x1 inn Hn)
          as [c' [T1 E1]]; try assumption; try congruence; try discriminate; try reflexivity.
        exists (Some c'). split; [constructor; exact T1|]. cbn [opt_list].
        reading. flags. reflexivity.
      - cbn [glay] in A0. subst. exists None. split; [constructor|apply reads_nil]. }
    destruct C as [nm' [T1 E1]]. exists (EArg nx nm' (Some v') sl). split.
    - apply T_arg; [exact T1|constructor; exact T2].
    - rewrite app_nil_r. unfold inner. reading. reflexivity. }
  assert (LR : listed_read inn R k infos f ->
    showing (concl o p fo m (EArgs n k rc items)) (at_rest stk) f (at_rest stk)).
  { intros [m' [x [y [z [l' [X [Z [-> [Fl El]]]]]]]]]. rewrite Nodes in Fl.
    exists (EArgs n k rc l'). split; [apply T_args, Fl|].
    apply (open_reads m' k x (at_rest stk) eq_refl) in X.
    apply (close_reads m' k z stk) in Z. unfold inner in El.
    reading. cbn [lines]. flags. reflexivity. }
  assert (CL : glay m (rule_call_like o n k rc infos) f ->
    showing (concl o p fo m (EArgs n k rc items)) (at_rest stk) f (at_rest stk)).
  { intros G. apply LR. exact (call_like_read inn eq_refl R o m n k rc infos f Ok La G). }
  unfold rule_args in F. destruct k; try exact (CL F).
  destruct (match fo_table fo with Some t => t | None => false end) eqn:ET; try exact (CL F).
  destruct (match infos with [] => true | _ => false end) eqn:EI.
  { destruct infos; [exact (CL F)|discriminate]. }
  assert (QT : q_table p = true).
  { apply Ft. destruct (fo_table fo) as [[]|]; try discriminate. reflexivity. }
  assert (F' : glay m match build_table ainfo ai_node (cell_text pc) (with_seps infos) with
      | Some t => write_table ainfo ai_node own_lead own_trail ai_doc (token_doc tCOMMA)
                    (token_doc (l_token KCall)) (token_doc (r_token KCall)) t
      | None => verbatim (EArgs n KCall rc items)
      end f) by (destruct infos; [discriminate|exact F]).
  clear F. rename F' into F.
  destruct (build_table _ _ _ _) as [t|] eqn:EB.
  - apply LR. refine (table_read inn eq_refl R pc m t infos f Cp Ok _ EB F).
    apply Forall_forall. intros a Ia. apply in_with_seps in Ia.
    destruct (Inf _ Ia) as [x [Ix E]]. rewrite E.
    destruct (It x Ix) as [nx [nm [v [sl [Ex [Hn [Hv [Sn [Sv [Hx [Tn Tv]]]]]]]]]]]. subst x.
    intros m' u U. cbn [arg_info ai_fields ai_node] in U |- *.
    destruct (arg_fieldsL (FArgList :: anc) nx nm v sl m' u inn eq_refl Hn Hv Sn Sv Tn Tv U)
      as [e' [T [_ Ee]]].
    exists e'. split; [exact T|exact Ee].
  - exists (EArgs n KCall rc items). split; [apply T_args_table, QT|].
    refine (verbatim_reads m (EArgs n KCall rc items) f (at_rest stk) _ Ld F).
    split; [reflexivity|]. split; [|exists c0; exact (proj2 Dg)].
    right. right. exists n, rc, items. reflexivity.
Qed.

(** * All nodes *)

Theorem fmt_reads e : shaped e -> holdsL e.
Proof.
  remember (esize e) as N eqn:EN. revert e EN.
  induction N as [N IHN] using (well_founded_induction lt_wf). intros e EN Sh.
  assert (IH : forall x, esize x < esize e -> shaped x -> holdsL x).
  { intros x L S. exact (IHN (esize x) ltac:(lia) x eq_refl S). }
  clear IHN EN N.
  destruct e.
  - apply case_leafL, Sh.
  - destruct Sh as [S1 S2]. apply case_unaryL; [apply IH; [cbn; lia|exact S2]|exact S1].
  - apply case_binaryL; assumption.
  - destruct Sh as [[S1 S2] [S3 S4]].
    apply case_extractL; try assumption; apply IH; cbn; try lia; assumption.
  - destruct Sh as [[S1 S2] [S3 S4]].
    apply case_namespaceL; try assumption; apply IH; cbn; try lia; assumption.
  - destruct Sh as [[S1 S2] [S3 S4]].
    apply case_functionL; try assumption; apply IH; cbn; try lia; assumption.
  - apply case_paramsL.
    + intros x Ix. pose proof (all_of_In _ _ _ Sh Ix) as [_ S].
      apply IH; [|exact S]. pose proof (esize_In x items Ix). cbn. lia.
    + intros x Ix. exact (proj1 (all_of_In _ _ _ Sh Ix)).
  - destruct Sh as [[S1 S2] S3].
    apply case_paramL; [apply IH; [cbn; lia|exact S2]| |exact S1|].
    + destruct dflt as [d|]; [|exact I]. destruct S3 as [_ S3]. apply IH; [cbn; lia|exact S3].
    + destruct dflt as [d|]; [|exact I]. exact (proj1 S3).
  - destruct Sh as [S1 S2]. apply case_defaultL; [apply IH; [cbn; lia|exact S2]|exact S1].
  - apply case_ifL; assumption.
  - destruct Sh as [S1 S2]. apply case_elseL; [apply IH; [cbn; lia|exact S2]|exact S1].
  - destruct Sh as [[S1 S2] [[S3 S4] [S5 S6]]].
    apply case_forL; try assumption; apply IH; cbn; try lia; assumption.
  - destruct Sh as [[S1 S2] [S3 S4]].
    apply case_whileL; try assumption; apply IH; cbn; try lia; assumption.
  - destruct Sh as [S1 S2]. apply case_repeatL; [apply IH; [cbn; lia|exact S2]|exact S1].
  - apply case_bracedL; assumption.
  - destruct Sh as [S1 S2]. apply case_parenL; [apply IH; [cbn; lia|exact S2]|exact S1].
  - destruct Sh as [[S1 S2] [S3 S4]].
    apply case_callL; try assumption; apply IH; cbn; try lia; assumption.
  - apply case_argsL; assumption.
  - destruct Sh as [S1 S2]. apply case_argL.
    + destruct nm as [c|]; [|exact I]. destruct S1 as [_ S1]. apply IH; [cbn; lia|exact S1].
    + destruct v as [v|]; [|exact I]. destruct S2 as [_ S2].
      apply IH; [destruct nm; cbn; lia|exact S2].
    + destruct nm as [c|]; [|exact I]. exact (proj1 S1).
    + destruct v as [v|]; [|exact I]. exact (proj1 S2).
  - destruct Sh as [S1 S2]. apply case_nameL; [apply IH; [cbn; lia|exact S2]|exact S1].
Qed.
End Reading.

(** * The whole file *)

Section Root.
Variable o : format_options.
Variable pc : doc -> option (list piece).
Hypothesis Cp : cell_printer pc.

Lemma root_copies (P : context -> context -> expr -> Prop) r out :
  (forall c0 c c' e, wider c c' -> P c0 c e -> P c0 c' e) ->
  root_shaped r -> root_tame_with P r -> prints (root_doc o pc r) out ->
  copies (@copy_piece (Cr o P)) see reader_start out /\
  exists es', Forall2 (tidy o (p_stmt true)) (r_exprs r) es' /\ read out = program es'.
Proof.
  intros Pw Sh [Tb Te] [os [L ->]]. pose (G := Cr o P). change (Cr o P) with G. apply lay_glay in L. unfold root_doc in L.
  split_lay L. split_lay L. split_lay L. split_lay L. split_lay L. split_lay L. lay_nil L.
  assert (Rs : ready reader_start) by reflexivity.
  apply (leading_reads _ _ _ reader_start (or_introl Rs)) in A.
  apply line_quiet in A2. apply dangling_soft_quiet in A3.
  assert (S4 : forall st, reads st x4 [] st) by (intros w; exact (trailing_reads _ _ _ w A4)).
  assert (B : reads reader_start x0 [] reader_start).
  { destruct (r_bom r) as [t|].
    - apply (token_reads _ t _ reader_start) in A0. cbn [opt_all] in Tb. rewrite Tb in A0. exact A0.
    - cbn [glay] in A0. subst. apply reads_nil. }
  assert (E : exists es' st', Forall2 (tidy o (p_stmt true)) (r_exprs r) es' /\
                reads reader_start x1 (program es') st').
  { unfold rule_expression_list in A1. destruct (r_exprs r) as [|e es] eqn:Es.
    - cbn [map join_entries glay] in A1. subst. exists [], reader_start.
      split; [constructor|apply reads_nil].
    - rewrite <- Es in *.
      destruct (entries_read [] eq_refl (tidy o (p_stmt true)) true Expanded reader_start
                  (map (fun e => (e, fmt o pc [FRootList] fo0 e)) (r_exprs r)) x1)
        as [es' [Fe Ee]]; try reflexivity; try exact A1.
      + rewrite Es. discriminate.
      + intros y d I. apply in_map_iff in I. destruct I as [z [Ez I]]. injection Ez as <- <-.
        pose proof (all_of_In _ _ _ Sh I) as [S1 S2].
        intros m u st Sk Hd Rd U. rewrite <- Sk.
        refine (child_first o pc P z _ (p_stmt true) fo0 m u st (fmt_reads o pc Cp P Pw z S2) S1 eq_refl _ _
                  Hd Rd _ _ U).
        * discriminate.
        * repeat split.
        * rewrite Sk. discriminate.
        * rewrite Sk. exact (all_of_In _ _ _ Te I).
      + assert (MF : map fst (map (fun e => (e, fmt o pc [FRootList] fo0 e)) (r_exprs r)) = r_exprs r)
          by (rewrite map_map; cbn [fst]; apply map_id).
        rewrite MF in Fe. exists es', (at_rest []). split; assumption. }
  destruct E as [es' [st' [Fe Ee]]].
  assert (Q : quiet (x2 ++ x3)) by (apply Forall_app; split; assumption).
  assert (T : exists st2, reads reader_start (x ++ x0 ++ x1 ++ x2 ++ x3 ++ x4 ++ [])
                (program es') st2).
  { assert (K : exists st2, reads st' (x2 ++ x3) [] st2)
      by (destruct (quiet_any st' _ Q) as [K|K]; eexists; exact K).
    destruct K as [st2 K]. exists st2. rewrite app_nil_r.
    eapply reads_skip_l; [exact A|]. eapply reads_skip_l; [exact B|].
    rewrite <- (app_nil_r (program es')). eapply reads_app; [exact Ee|].
    rewrite (app_assoc x2 x3 x4). exact (reads_app _ _ _ _ _ [] [] K (S4 _)). }
  destruct T as [st2 T].
  destruct (run_reads _ _ _ _ Rs T) as [Cs K]. split; [exact Cs|].
  exists es'. split; [exact Fe|]. destruct K as [K|K]; unfold read; rewrite K; reflexivity.
Qed.

Lemma root_reads r out :
  root_shaped r -> root_tame r -> prints (root_doc o pc r) out ->
  exists es', Forall2 (tidy o (p_stmt true)) (r_exprs r) es' /\ read out = program es'.
Proof.
  intros Sh Te H. exact (proj2 (root_copies _ r out (fun _ _ _ _ _ _ => I) Sh Te H)).
Qed.
End Root.

(** Reading changes no token. *)
Lemma flag_tokens b l : map fst (flag b l) = map fst l.
Proof. destruct l as [|[t f] l]; reflexivity. Qed.

Lemma statements_tokens ls : map fst (statements ls) = concat (map (map fst) ls).
Proof.
  destruct ls as [|x r]; [reflexivity|]. cbn [statements map concat]. rewrite map_app. f_equal.
  induction r as [|y r IH]; [reflexivity|]. cbn [map concat]. rewrite map_app, flag_tokens, IH.
  reflexivity.
Qed.
Lemma commas_tokens ls : map fst (listed_by_commas ls) = commas (map (map fst) ls).
Proof.
  induction ls as [|x [|y r] IH]; [reflexivity..|].
  cbn [listed_by_commas map commas] in IH |- *. rewrite map_app. cbn [map fst inline].
  rewrite IH. reflexivity.
Qed.
Lemma lines_tokens e : map fst (lines e) = etokens e.
Proof.
  assert (L : forall l, Forall (fun e => map fst (lines e) = etokens e) l ->
                map (map fst) (map lines l) = map etokens l).
  { intros l F. induction F as [|x l X F IH]; [reflexivity|]. cbn [map]. congruence. }
  induction e as [n k ts|n op a IH|n l op r IHl IHr|n l op r IHl IHr|n l op r IHl IHr
    |n name ps b IHp IHb|n items IH|n a d IHa IHd|n v IH|n c t el IHc IHt IHe|n nl a IH
    |n v s b IHv IHs IHb|n c b IHc IHb|n b IH|n es IH|n b IH|n f args IHf IHa|n k rc items IH
    |n nm v sl IHn IHv|n nm IH] using expr_ind'; cbn [lines etokens];
    rewrite ?map_app; cbn [map fst inline]; rewrite ?map_app; cbn [map fst inline];
    rewrite ?map_app; cbn [map fst inline];
    rewrite ?statements_tokens, ?commas_tokens, ?(L _ IH); try congruence.
  - induction ts as [|t ts IHt]; [reflexivity|]. cbn [map fst inline]. congruence.
  - destruct d as [d|]; cbn [opt_list map]; [|congruence]. rewrite IHa. f_equal. apply IHd.
  - destruct el as [e|]; cbn [opt_list map]; [|congruence]. rewrite IHc, IHt. do 3 f_equal.
    f_equal. f_equal. apply IHe.
  - destruct nm as [c|], v as [v|]; cbn [opt_list map]; try reflexivity.
    + f_equal; [apply IHn|apply IHv].
    + rewrite !app_nil_r. apply IHn.
    + apply IHv.
Qed.
Lemma program_tokens es : map fst (program es) = concat (map etokens es).
Proof.
  unfold program. rewrite statements_tokens, map_map. f_equal. apply map_ext, lines_tokens.
Qed.
