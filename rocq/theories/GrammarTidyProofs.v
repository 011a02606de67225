(** Tidied programs: R's grammar builds the same tree. *)
From Coq Require Import List Arith Bool NArith Lia.
From Verif Require Import Text LineEndingSpec LineEndingProofs SettingsModel SyntaxKind
  DirectiveModel FmtTree FmtSpec FmtTidyInd FmtFactProofs FmtLineSpec GrammarSpec GrammarProofs.
Import ListNotations.

(** * Shapes *)

Section Shapes.
Variable o : format_options.

Definition Shp (e e' : expr) : Prop := sort_of e' = sort_of e /\ (shaped e -> shaped e').
Definition is_sort (s : sort) (x : expr) : Prop := sort_of x = s /\ shaped x.
Lemma Shp_is s e e' : Shp e e' -> is_sort s e -> is_sort s e'.
Proof. intros [A B] [C D]. split; [congruence|auto]. Qed.
Lemma Shp_all s l l' : Forall2 Shp l l' -> all_of (is_sort s) l -> all_of (is_sort s) l'.
Proof.
  induction 1 as [|x y l l' H F IH]; [auto|]. intros [A B]. split; [exact (Shp_is _ _ _ H A)|auto].
Qed.
Lemma Shp_opt s x x' : opt_rel Shp x x' -> opt_all (is_sort s) x -> opt_all (is_sort s) x'.
Proof. intros [|a b H]; [auto|]. apply Shp_is, H. Qed.

Lemma tidy_Shp p e e' : tidy o p e e' -> Shp e e'.
Proof.
  revert p e e'.
  apply (tidy_ind' o (fun _ => Shp) (fun _ => Shp)
    (fun _ el el' => opt_all (is_sort SoElse) el -> opt_all (is_sort SoElse) el')
    (fun _ b b' => sort_of b = SoExpr -> Shp b b')); unfold Shp; intros; cbn [sort_of shaped];
    fold (is_sort SoExpr) (is_sort SoParams) (is_sort SoParam) (is_sort SoDefault) (is_sort SoElse)
      (is_sort SoArgs) (is_sort SoArg) (is_sort SoName); try (split; [reflexivity|]); auto.
  - intros N E. subst ts'. inversion H; subst. contradiction.
  - intros S. exact (Shp_is _ _ _ H0 S).
  - intros [S1 S2]. split; eapply Shp_is; eassumption.
  - intros [S1 S2]. split; eapply Shp_is; eassumption.
  - intros [S1 S2]. split; eapply Shp_is; eassumption.
  - intros [S1 S2]. split; [exact (Shp_is _ _ _ H0 S1)|exact (Shp_is _ _ _ (H1 (proj1 S2)) S2)].
  - apply Shp_all, H.
  - intros [S1 S2]. split; [exact (Shp_is _ _ _ H S1)|exact (Shp_opt _ _ _ H0 S2)].
  - intros S. exact (Shp_is _ _ _ H S).
  - intros [S1 [S2 S3]]. split; [exact (Shp_is _ _ _ H S1)|].
    split; [exact (Shp_is _ _ _ H0 S2)|exact (Shp_is _ _ _ (H1 (proj1 S3)) S3)].
  - intros [S1 S2]. split; [exact (Shp_is _ _ _ H S1)|exact (Shp_is _ _ _ (H0 (proj1 S2)) S2)].
  - intros S. exact (Shp_is _ _ _ (H (proj1 S)) S).
  - apply Shp_all. clear -H. induction H; constructor; auto.
  - intros S. exact (Shp_is _ _ _ H S).
  - intros [S1 S2]. split; eapply Shp_is; eassumption.
  - apply Shp_all, H.
  - intros [S1 S2]. split; [exact (Shp_opt _ _ _ H S1)|exact (Shp_opt _ _ _ H0 S2)].
  - intros S. exact (Shp_is _ _ _ H S).
  - intros [S1 [S2 S3]]. split; [exact (Shp_is _ _ _ H S1)|].
    split; [exact (Shp_is _ _ _ (H0 (proj1 S2)) S2)|exact (H1 S3)].
  - destruct H1 as [_ S]. exact (Shp_is SoExpr _ _ H0 S).
  - destruct H1 as [_ S]. exact (Shp_is SoExpr _ _ (H0 (proj1 S)) S).
  - cbn [add_braces sort_of]. split; [congruence|]. intros S. split; [|exact I].
    exact (Shp_is SoExpr _ _ H0 (conj H1 S)).
Qed.
End Shapes.

(** * Trees that the grammar builds *)

Lemma level_eq op op' : t_kind op' = t_kind op -> level_of op' = level_of op.
Proof. intros E. unfold level_of. rewrite E. reflexivity. Qed.
Lemma level_some op l : infix_level (t_kind op) = Some l -> level_of op = l.
Proof. intros E. unfold level_of. rewrite E. reflexivity. Qed.
Lemma same_kind t t' : same_token t t' -> t_kind t' = t_kind t.
Proof.
  unfold same_token. destruct (kind_eqb (t_kind t) STRING_CONTENT) eqn:E.
  - intros [H _]. apply kind_eqb_eq in E. congruence.
  - intros ->. reflexivity.
Qed.
Lemma level_three k : infix_level k = Some 3 -> k = EQUAL.
Proof. destruct k; intros H; first [reflexivity|discriminate H]. Qed.
Lemma level_four k : infix_level k = Some 4 -> right_assoc k = true.
Proof. destruct k; intros H; first [reflexivity|discriminate H]. Qed.
Lemma level_not_two k : infix_level k <> Some 2.
Proof. destruct k; discriminate. Qed.
Lemma prefix_not_three k : prefix_level k <> Some 3.
Proof. destruct k; discriminate. Qed.
Lemma four_passes k : infix_level k = Some 4 -> k = ASSIGN \/ passes_eq k = false.
Proof. destruct k; intros H; try discriminate H; try (right; reflexivity). left; reflexivity. Qed.
Lemma right_of_le k l : right_of k l <= S l /\ l <= right_of k l.
Proof. unfold right_of. destruct (right_assoc k); lia. Qed.

Section Grammar.
Variable o : format_options.
Let st := o_assignment_style o.

Lemma restyled_cases qe op op' : restyled st qe op op' ->
  (t_kind op' = t_kind op /\ (t_kind op = EQUAL -> st <> AArrow) /\
     (t_kind op = ASSIGN -> qe = false \/ st <> AEqual)) \/
  (st = AArrow /\ t_kind op = EQUAL /\ op' = tARROW) \/
  (st = AEqual /\ t_kind op = ASSIGN /\ qe = true /\ op' = tEQUAL).
Proof.
  unfold restyled. intros H. destruct st, qe; destruct (t_kind op) eqn:Ek;
    first [ right; left; split; [reflexivity|split; [reflexivity|exact H]]
          | right; right; split; [reflexivity|split; [reflexivity|split; [reflexivity|exact H]]]
          | left; apply same_kind in H; rewrite H, Ek; split; [reflexivity|]; split;
            [intros X; first [discriminate X|discriminate]|
             intros X; first [discriminate X|left; reflexivity|right; discriminate]] ].
Qed.

Definition allowed (k : nat) : Prop := k <> LEVEL_ARROW \/ st = APreserve.
Definition kept (e : expr) : Prop := st <> APreserve -> everywhere chain_kept e.

(** Not a [=] that was skipped. *)
Definition unskipped (e : expr) : Prop :=
  match e with
  | EBinary n _ op _ =>
    t_kind op = EQUAL ->
    forall c, In c (n_lead n) -> parse_comment_directive (c_text c) <> Some DSkip
  | _ => True
  end.
Definition hole (e : expr) : Prop := exists n sl, e = EArg n None None sl.

Record facts (qe : bool) (e e' : expr) : Prop := {
  fa_left : forall k, allowed k -> k <= left_least e -> k <= left_least e';
  fa_left4 : qe = false \/ st <> AEqual -> LEVEL_ARROW <= left_least e -> LEVEL_ARROW <= left_least e';
  fa_chain : st = AArrow -> LEVEL_EQUAL <= left_least e -> unskipped e ->
    LEVEL_ARROW <= left_least e';
  fa_right : forall k, allowed k -> k <= right_least e -> k <= right_least e';
  fa_else : wants_else e = false -> wants_else e' = false;
  fa_compare : comparison e' = comparison e;
  fa_leaf : is_leaf e -> is_leaf e';
  fa_hole : hole e' -> hole e
}.

(** An expression that ends before [=] does not have one open to the left. *)
Lemma left_above e eq : grammatical eq e -> LEVEL_EQUAL < right_least e -> LEVEL_ARROW <= left_least e.
Proof.
  unfold LEVEL_EQUAL, LEVEL_ARROW.
  assert (Bin : forall op l r lv, infix_level (t_kind op) = Some lv -> lv < right_least l ->
    3 < Nat.min (right_of (t_kind op) (level_of op)) (right_least r) ->
    (3 < right_least l -> 4 <= left_least l) ->
    4 <= Nat.min (level_of op) (left_least l)).
  { intros op l r lv E L R I. rewrite (level_some _ _ E) in *.
    pose proof (right_of_le (t_kind op) lv) as [A B].
    assert (4 <= lv).
    { destruct (Nat.eq_dec lv 3) as [->|]; [|lia].
      unfold right_of in R. rewrite (level_three _ E) in R. cbn [right_assoc] in R. lia. }
    lia. }
  revert eq. induction e using expr_ind'; intros eq G R; cbn [left_least right_least grammatical] in *;
    try (unfold LEVEL_TOP; lia).
  - destruct G as [[lv [E [L _]]] [_ [G1 _]]]. eapply Bin; eauto.
  - destruct G as [[lv [E [L _]]] [_ [G1 _]]]. eapply Bin; eauto.
  - destruct G as [[lv [E [L _]]] [_ [G1 _]]]. eapply Bin; eauto.
  - destruct G as [G1 [L _]]. unfold LEVEL_CALL in *. specialize (IHe1 _ G1). lia.
Qed.

Definition is_equal (e : expr) : bool :=
  match e with EBinary _ _ op _ => kind_eqb (t_kind op) EQUAL | _ => false end.
Lemma same_facts qe e eq : grammatical eq e ->
  (is_equal e = true -> st = AArrow -> ~ unskipped e) -> facts qe e e.
Proof.
  intros G N. constructor; auto. intros Sa L U.
  assert (Bin : forall op (l : expr) lv, infix_level (t_kind op) = Some lv -> lv < right_least l ->
    grammatical eq l -> t_kind op <> EQUAL ->
    3 <= Nat.min (level_of op) (left_least l) -> 4 <= Nat.min (level_of op) (left_least l)).
  { intros op l lv E R Gl Ne H. rewrite (level_some _ _ E) in *.
    assert (4 <= lv).
    { destruct (Nat.eq_dec lv 3) as [->|]; [destruct (Ne (level_three _ E))|lia]. }
    pose proof (left_above l eq Gl). unfold LEVEL_EQUAL, LEVEL_ARROW in *. lia. }
  unfold LEVEL_ARROW, LEVEL_EQUAL in *.
  destruct e; cbn [left_least grammatical is_equal] in *; try (unfold LEVEL_TOP; lia).
  - destruct G as [[lv [E [R _]]] [_ [G1 _]]]. apply (Bin op e1 lv); auto.
    intros X. rewrite X in N. exact (N eq_refl Sa U).
  - destruct G as [[lv [E [R _]]] [_ [G1 [_ X]]]]. apply (Bin op e1 lv); auto.
    intros Y. rewrite Y in X. discriminate.
  - destruct G as [[lv [E [R _]]] [_ [G1 [_ X]]]]. apply (Bin op e1 lv); auto.
    intros Y. rewrite Y in X. discriminate.
  - destruct G as [G1 [R _]]. pose proof (left_above e1 eq G1).
    unfold LEVEL_EQUAL, LEVEL_ARROW, LEVEL_CALL in *. lia.
Qed.

Lemma infix_step qe ql qr eq l op r l' op' r' lv :
  ((t_kind op' = t_kind op /\ (t_kind op = EQUAL -> st <> AArrow) /\
     (lv = 4 -> qr = false \/ st <> AEqual)) \/
   (st = AArrow /\ t_kind op = EQUAL /\ op' = tARROW) \/
   (st = AEqual /\ t_kind op = ASSIGN /\ qe = true /\ op' = tEQUAL)) ->
  (qe = false \/ st <> AEqual -> ql = false \/ st <> AEqual) ->
  (t_kind op = EQUAL -> st <> APreserve -> 4 < right_least l /\ unskipped r) ->
  infix_level (t_kind op) = Some lv -> lv < right_least l ->
  right_of (t_kind op) lv <= left_least r -> (lv = LEVEL_COMPARE -> comparison l = false) ->
  grammatical eq l -> facts ql l l' -> facts qr r r' ->
  (exists lv', infix_level (t_kind op') = Some lv' /\ lv' < right_least l' /\
     right_of (t_kind op') lv' <= left_least r' /\ (lv' = LEVEL_COMPARE -> comparison l' = false)) /\
  (forall k, allowed k -> k <= Nat.min (level_of op) (left_least l) ->
     k <= Nat.min (level_of op') (left_least l')) /\
  (qe = false \/ st <> AEqual -> 4 <= Nat.min (level_of op) (left_least l) ->
     4 <= Nat.min (level_of op') (left_least l')) /\
  (st = AArrow -> 3 <= Nat.min (level_of op) (left_least l) ->
     4 <= Nat.min (level_of op') (left_least l')) /\
  (forall k, allowed k ->
     k <= Nat.min (right_of (t_kind op) (level_of op)) (right_least r) ->
     k <= Nat.min (right_of (t_kind op') (level_of op')) (right_least r')) /\
  (level_of op' =? LEVEL_COMPARE) = (level_of op =? LEVEL_COMPARE).
Proof.
  intros Cs Hq Ch E L R Co Gl [l1 l2 _ l4 _ l6 _ _] [r1 r2 r3 r4 _ _ _ _].
  unfold allowed, LEVEL_ARROW, LEVEL_EQUAL, LEVEL_COMPARE in *.
  pose proof (left_above l eq Gl) as Ab. unfold LEVEL_ARROW, LEVEL_EQUAL in Ab.
  rewrite (level_some _ _ E).
  destruct Cs as [[Ek [Na Nq]]|[[Es [Ek ->]]|[Es [Ek [-> ->]]]]].
  - rewrite (level_eq _ _ Ek), Ek, E, (level_some _ _ E).
    pose proof (right_of_le (t_kind op) lv) as [B1 B2].
    split.
    { exists lv. split; [reflexivity|]. split; [|split; [|rewrite l6; exact Co]].
      - destruct (Nat.eq_dec lv 3) as [->|].
        + pose proof (level_three _ E) as X.
          assert (D : st = APreserve \/ st <> APreserve) by (destruct st; auto; right; discriminate).
          destruct D as [D|D].
          * specialize (l4 4 (or_intror D)). lia.
          * destruct (Ch X D) as [C1 _]. specialize (l4 5 ltac:(left; lia)). lia.
        + specialize (l4 (S lv) ltac:(left; lia)). lia.
      - destruct (Nat.eq_dec (right_of (t_kind op) lv) 4) as [X|X].
        + rewrite X in *. destruct (Nat.eq_dec lv 4) as [->|Y]; [apply r2; auto|].
          assert (lv = 3) by (unfold right_of in X; destruct (right_assoc (t_kind op)); lia).
          subst lv. unfold right_of in X. rewrite (level_three _ E) in X. discriminate X.
        + apply r1; auto. }
    split. { intros k A K. specialize (l1 k A). lia. }
    split. { intros A K. specialize (l2 (Hq A)). lia. }
    split.
    { intros A K. assert (lv <> 3).
      { intros ->. exact (Na (level_three _ E) A). }
      specialize (l2 ltac:(right; rewrite A; discriminate)). lia. }
    split; [|reflexivity].
    intros k A K. specialize (r4 k A). lia.
  - rewrite Ek in E, R. injection E as <-. cbn [right_of right_assoc] in R.
    destruct (Ch Ek ltac:(rewrite Es; discriminate)) as [C1 C2].
    unfold LEVEL_EQUAL in *. change (level_of tARROW) with 4. change (t_kind tARROW) with ASSIGN.
    cbn [right_of right_assoc infix_level]. unfold LEVEL_ARROW.
    specialize (l2 ltac:(right; rewrite Es; discriminate)).
    split.
    { exists 4. split; [reflexivity|]. split; [|split; [|intros; discriminate]].
      - specialize (l4 5 ltac:(left; lia)). lia.
      - apply r3; auto. }
    split. { intros k A K. specialize (l1 k A). lia. }
    split. { intros A K. lia. }
    split. { intros A K. lia. }
    rewrite Ek. split; [|reflexivity].
    intros k A K. specialize (r4 k A). cbn [right_of right_assoc] in *. unfold LEVEL_EQUAL in *. lia.
  - rewrite Ek in E, R. injection E as <-. cbn [right_of right_assoc] in R.
    unfold LEVEL_ARROW in *. change (level_of tEQUAL) with 3. change (t_kind tEQUAL) with EQUAL.
    cbn [right_of right_assoc infix_level]. unfold LEVEL_EQUAL.
    assert (Ne : forall k, k <> 4 \/ st = APreserve -> k <> 4).
    { intros k [A|A]; [exact A|]. rewrite Es in A. discriminate A. }
    split.
    { exists 3. split; [reflexivity|]. split; [|split; [|intros; discriminate]].
      - specialize (l4 5 ltac:(left; lia)). lia.
      - apply r1; [left; lia|]. unfold right_of in R. cbn [right_assoc] in R. lia. }
    split. { intros k A K. specialize (l1 k A). specialize (Ne k A). lia. }
    split. { intros [A|A] K; [discriminate|]. rewrite Es in A. contradiction. }
    split. { intros A K. rewrite Es in A. discriminate A. }
    rewrite Ek. split; [|reflexivity].
    intros k A K. specialize (r4 k A). specialize (Ne k A). cbn [right_of right_assoc] in *. lia.
Qed.

(** * The induction *)

Definition Gr (p : pos) (e e' : expr) : Prop := forall eq, (q_eq p = true -> eq = true) ->
  grammatical eq e -> kept e -> grammatical eq e' /\ facts (q_eq p) e e'.
Definition GrI (e e' : expr) : Prop := forall eq qe,
  grammatical eq e -> kept e -> grammatical eq e' /\ facts qe e e'.
Definition ends (e e' : expr) : Prop :=
  (forall k, allowed k -> k <= right_least e -> k <= right_least e') /\
  (wants_else e = false -> wants_else e' = false).
Definition GrE (el el' : option expr) : Prop :=
  opt_all (grammatical true) el -> opt_all kept el ->
  opt_all (grammatical true) el' /\ opt_rel ends el el'.
Definition GrB (b b' : expr) : Prop :=
  grammatical true b -> kept b ->
  grammatical true b' /\ (LEVEL_BODY <= left_least b -> LEVEL_BODY <= left_least b') /\ ends b b'.

Lemma kept_all l : (st <> APreserve -> all_of (everywhere chain_kept) l) -> all_of kept l.
Proof.
  intros H. apply all_of_Forall, Forall_forall. intros x Hx N. exact (all_of_in _ _ _ (H N) Hx).
Qed.
Lemma Gr_all p eq l l' : Forall2 (Gr p) l l' -> (q_eq p = true -> eq = true) ->
  all_of (grammatical eq) l -> all_of kept l ->
  all_of (grammatical eq) l' /\ Forall2 (facts (q_eq p)) l l'.
Proof.
  intros F Q. induction F as [|x y l l' H F IH]; intros G K; [split; constructor|].
  destruct G as [G1 G2], K as [K1 K2]. destruct (H eq Q G1 K1), (IH G2 K2).
  split; [split; assumption|constructor; assumption].
Qed.
Lemma Gr_opt p eq x x' : opt_rel (Gr p) x x' -> (q_eq p = true -> eq = true) ->
  opt_all (grammatical eq) x -> (st <> APreserve -> opt_all (everywhere chain_kept) x) ->
  opt_all (grammatical eq) x'.
Proof.
  intros [|a b H] Q G K; [exact I|]. apply (H eq Q G). exact K.
Qed.

Ltac closed_facts :=
  constructor; cbn [left_least right_least wants_else comparison is_leaf];
  [ auto | auto | unfold LEVEL_ARROW, LEVEL_TOP; lia | auto | auto | reflexivity | auto
  | intros [? [? X]]; discriminate X ].

Lemma atom_same ts ts' : Forall2 same_token ts ts' -> atom_tokens ts -> atom_tokens ts'.
Proof.
  intros F [[t [-> A]]|[a [m [z [-> [A [Z M]]]]]]].
  - inversion F as [|? t' ? q S F2]; subst. inversion F2; subst. left. exists t'.
    rewrite (same_kind _ _ S). auto.
  - inversion F as [|? a' ? q S F2]; subst. apply Forall2_app_inv_l in F2.
    destruct F2 as [m' [z' [Fm [Fz ->]]]]. inversion Fz as [|? w ? q Sz Fn]; subst. inversion Fn; subst.
    right. exists a', m', w. rewrite (same_kind _ _ S), (same_kind _ _ Sz).
    split; [reflexivity|]. split; [exact A|]. split; [exact Z|].
    clear - Fm M. induction Fm as [|x y l l' S F IH]; [exact I|]. destruct M as [M1 M2].
    split; [rewrite (same_kind _ _ S); exact M1|auto].
Qed.

Lemma body_facts (e e' b b' : expr) qe :
  right_least e = Nat.min LEVEL_BODY (right_least b) ->
  right_least e' = Nat.min LEVEL_BODY (right_least b') ->
  wants_else e = wants_else b -> wants_else e' = wants_else b' ->
  left_least e = LEVEL_TOP -> left_least e' = LEVEL_TOP ->
  comparison e = false -> comparison e' = false -> ~ is_leaf e -> ~ hole e' ->
  ends b b' -> facts qe e e'.
Proof.
  intros R R' W W' L L' C C' Nl Nh [E1 E2]. constructor; rewrite ?R, ?R', ?W, ?W', ?L, ?L', ?C, ?C'; auto.
  - unfold LEVEL_ARROW, LEVEL_TOP. lia.
  - intros k A K. specialize (E1 k A). lia.
  - contradiction.
  - contradiction.
Qed.

Lemma tidy_Gr p e e' : tidy o p e e' -> Gr p e e'.
Proof.
  revert p e e'.
  apply (tidy_ind' o Gr (fun _ => GrI) (fun _ => GrE) (fun _ => GrB)).
  - (* skipped *)
    intros p e Sk eq Q G K. split; [exact G|]. apply (same_facts _ _ eq G).
    intros Eq Ea U. destruct e; try discriminate Eq. cbn [is_equal unskipped] in *.
    apply kind_eqb_eq in Eq. destruct Sk as [[_ [c [Hc Hs]]]|[n' [f [args [X _]]]]]; [|discriminate X].
    exact (U Eq c Hc Hs).
  - (* leaf *)
    intros p n k ts ts' F eq Q G K. split; [exact (atom_same _ _ F G)|]. closed_facts.
  - (* unary *)
    intros p n op op' a a' Sm IH eq Q G K. cbn [grammatical] in *. destruct G as [[lv [E L]] G].
    rewrite (same_kind _ _ Sm).
    destruct (IH (eq || kind_eqb (t_kind op) WAT)) as [Ga Fa]; auto.
    { cbn [p_unary mkpos q_eq]. intros ->. apply orb_true_r. }
    { intros N. exact (proj2 (K N)). }
    destruct Fa as [f1 _ _ f4 f5 _ _ _]. split.
    + split; [|exact Ga]. exists lv. split; [exact E|]. apply (f1 (S lv)); [|exact L].
      left. intros X. injection X as ->. exact (prefix_not_three _ E).
    + constructor; cbn [left_least right_least wants_else comparison is_leaf]; auto.
      * unfold LEVEL_ARROW, LEVEL_TOP. lia.
      * assert (Ep : prefix_of op' = prefix_of op)
          by (unfold prefix_of; rewrite (same_kind _ _ Sm); reflexivity).
        rewrite Ep. intros k A H. specialize (f4 k A). lia.
      * intros [? [? X]]; discriminate X.
  - (* binary *)
    intros p n l l' op op' r r' table Rs _ IHl IHr _ _ eq Q G K.
    cbn [grammatical] in *. destruct G as [[lv [E [L [R Co]]]] [Qe [Gl [Gr0 _]]]].
    assert (Kl : kept l) by (intros N; exact (proj1 (proj2 (K N)))).
    assert (Kr : kept r) by (intros N; exact (proj2 (proj2 (K N)))).
    assert (Qo : forall t, q_eq (p_operand (q_eq p) op t) = true -> eq = true).
    { intros t H. apply Q. cbn [p_operand mkpos q_eq] in H. apply andb_prop in H. apply H. }
    destruct (IHl eq (Qo _) Gl Kl) as [Gl' Fl]. destruct (IHr eq (Qo _) Gr0 Kr) as [Gr' Fr].
    cbn [p_operand mkpos q_eq] in Fl, Fr.
    destruct (infix_step (q_eq p) (q_eq p && passes_eq (t_kind op)) (q_eq p && passes_eq (t_kind op)) eq l op r l' op' r' lv) 
      with (4 := E) (5 := L) (6 := R) (7 := Co) (8 := Gl) (9 := Fl) (10 := Fr)
      as [S1 [S2 [S3 [S4 [S5 S6]]]]]; auto.
    { destruct (restyled_cases _ _ _ Rs) as [[A [B C]]|D]; [left|right; exact D].
      split; [exact A|]. split; [exact B|]. intros ->.
      destruct (four_passes _ E) as [X|X].
      - destruct (C X) as [-> |Y]; [left; reflexivity|right; exact Y].
      - left. rewrite X. apply andb_false_r. }
    { intros [-> |A]; [left; reflexivity|right; exact A]. }
    { intros X N. destruct (K N) as [Ch _]. exact (Ch X). }
    split.
    + split; [exact S1|]. split; [|auto]. intros X.
      destruct (restyled_cases _ _ _ Rs) as [[A _]|[[_ [_ Y]]|[_ [_ [Y _]]]]].
      * apply Qe. congruence.
      * rewrite Y in X. discriminate X.
      * exact (Q Y).
    + constructor; cbn [left_least right_least wants_else comparison is_leaf]; auto.
      * apply (fa_else _ _ _ Fr).
      * intros [? [? X]]; discriminate X.
  - (* extraction *)
    intros p n l l' op op' r r' Sm IHl IHr eq Q G K.
    cbn [grammatical] in *. destruct G as [[lv [E [L [R Co]]]] [Qe [Gl [Gr0 X]]]].
    rewrite E in X. injection X as ->.
    assert (Kl : kept l) by (intros N; exact (proj1 (proj2 (K N)))).
    assert (Kr : kept r) by (intros N; exact (proj2 (proj2 (K N)))).
    destruct (IHl eq ltac:(discriminate) Gl Kl) as [Gl' Fl].
    destruct (IHr eq ltac:(discriminate) Gr0 Kr) as [Gr' Fr].
    assert (Ne : t_kind op <> EQUAL) by (intros Y; rewrite Y in E; discriminate E).
    destruct (infix_step (q_eq p) false false eq l op r l' op' r' LEVEL_CALL) 
      with (4 := E) (5 := L) (6 := R) (7 := Co) (8 := Gl) (9 := Fl) (10 := Fr)
      as [S1 [S2 [S3 [S4 [S5 S6]]]]]; auto.
    { left. split; [exact (same_kind _ _ Sm)|]. split; [contradiction|discriminate]. }
    { contradiction. }
    rewrite (same_kind _ _ Sm) in *.
    split.
    + split; [exact S1|]. auto.
    + constructor; cbn [left_least right_least wants_else comparison is_leaf];
        rewrite ?(same_kind _ _ Sm) in *; auto.
      * apply (fa_else _ _ _ Fr).
      * intros [? [? X]]; discriminate X.
  - (* namespace *)
    intros p n l l' op op' r r' Sm IHl IHr eq Q G K.
    cbn [grammatical] in *. destruct G as [[lv [E [L [R Co]]]] [Qe [Gl [Gr0 X]]]].
    rewrite E in X. injection X as ->.
    assert (Kl : kept l) by (intros N; exact (proj1 (proj2 (K N)))).
    assert (Kr : kept r) by (intros N; exact (proj2 (proj2 (K N)))).
    destruct (IHl eq ltac:(discriminate) Gl Kl) as [Gl' Fl].
    destruct (IHr eq ltac:(discriminate) Gr0 Kr) as [Gr' Fr].
    assert (Ne : t_kind op <> EQUAL) by (intros Y; rewrite Y in E; discriminate E).
    destruct (infix_step (q_eq p) false false eq l op r l' op' r' LEVEL_NAMESPACE) 
      with (4 := E) (5 := L) (6 := R) (7 := Co) (8 := Gl) (9 := Fl) (10 := Fr)
      as [S1 [S2 [S3 [S4 [S5 S6]]]]]; auto.
    { left. split; [exact (same_kind _ _ Sm)|]. split; [contradiction|discriminate]. }
    { contradiction. }
    rewrite (same_kind _ _ Sm) in *.
    split.
    + split; [exact S1|]. auto.
    + constructor; cbn [left_least right_least wants_else comparison is_leaf];
        rewrite ?(same_kind _ _ Sm) in *; auto.
      * apply (fa_else _ _ _ Fr).
      * intros [? [? X]]; discriminate X.
  - (* function *)
    intros p n kw kw' ps ps' w b b' Sm IHp IHb _ eq Q G K. cbn [grammatical] in *.
    destruct G as [Gk [Gp [Gb Lb]]].
    destruct (IHp false ltac:(discriminate) Gp ltac:(intros N; exact (proj1 (proj2 (K N))))) as [Gp' Fp].
    destruct (IHb Gb ltac:(intros N; exact (proj2 (proj2 (K N))))) as [Gb' [Lb' Eb]].
    rewrite (same_kind _ _ Sm). split; [auto|].
    apply (body_facts _ _ b b'); try reflexivity; [intros []|intros [? [? X]]; discriminate X|exact Eb].
  - (* parameters *)
    intros p n l l' F eq Q G K. cbn [grammatical] in *.
    destruct (Gr_all p_plain false l l' F ltac:(discriminate) G) as [G' _].
    { apply kept_all. intros N. exact (proj2 (K N)). }
    split; [exact G'|]. closed_facts.
  - (* parameter *)
    intros p n a a' d d' IHa F eq Q G K. cbn [grammatical] in *. destruct G as [La [Ga Gd]].
    destruct (IHa false ltac:(discriminate) Ga ltac:(intros N; exact (proj1 (proj2 (K N))))) as [Ga' Fa].
    split; [|closed_facts]. split; [exact (fa_leaf _ _ _ Fa La)|]. split; [exact Ga'|].
    apply (Gr_opt p_plain false d d' F); auto. intros N. exact (proj2 (proj2 (K N))).
  - (* default *)
    intros p n v v' IH eq Q G K. cbn [grammatical] in *.
    destruct (IH false ltac:(discriminate) G ltac:(intros N; exact (proj2 (K N)))) as [G' _].
    split; [exact G'|]. closed_facts.
  - (* if *)
    intros p w e e' IH _ eq Q G K. exact (IH eq (q_eq p) G K).
  - (* for *)
    intros p n v v' s s' b b' IHv IHs IHb eq Q G K. cbn [grammatical] in *.
    destruct G as [Lv [Gv [Gs [Gb Lb]]]].
    destruct (IHv false ltac:(discriminate) Gv ltac:(intros N; exact (proj1 (proj2 (K N))))) as [Gv' Fv].
    destruct (IHs false ltac:(discriminate) Gs ltac:(intros N; exact (proj1 (proj2 (proj2 (K N)))))) as [Gs' Fs].
    destruct (IHb Gb ltac:(intros N; exact (proj2 (proj2 (proj2 (K N)))))) as [Gb' [Lb' Eb]].
    split. { split; [exact (fa_leaf _ _ _ Fv Lv)|]. auto. }
    apply (body_facts _ _ b b'); try reflexivity; [intros []|intros [? [? X]]; discriminate X|exact Eb].
  - (* while *)
    intros p n c c' b b' IHc IHb eq Q G K. cbn [grammatical] in *. destruct G as [Gc [Gb Lb]].
    destruct (IHc false ltac:(discriminate) Gc ltac:(intros N; exact (proj1 (proj2 (K N))))) as [Gc' Fc].
    destruct (IHb Gb ltac:(intros N; exact (proj2 (proj2 (K N))))) as [Gb' [Lb' Eb]].
    split; [auto|].
    apply (body_facts _ _ b b'); try reflexivity; [intros []|intros [? [? X]]; discriminate X|exact Eb].
  - (* repeat *)
    intros p n b b' IHb eq Q G K. cbn [grammatical] in *. destruct G as [Gb Lb].
    destruct (IHb Gb ltac:(intros N; exact (proj2 (K N)))) as [Gb' [Lb' Eb]].
    split; [auto|].
    apply (body_facts _ _ b b'); try reflexivity; [intros []|intros [? [? X]]; discriminate X|exact Eb].
  - (* braces *)
    intros p n l l' F eq Q G K. cbn [grammatical] in *. split; [|closed_facts].
    assert (Kl : all_of kept l) by (apply kept_all; intros N; exact (proj2 (K N))).
    clear K. induction F as [|a b l l' H F IH]; [exact I|]. destruct G as [G1 G2], Kl as [K1 K2].
    split; [|auto]. apply (H true); auto.
  - (* parentheses *)
    intros p n b b' IH eq Q G K. cbn [grammatical] in *.
    destruct (IH true ltac:(reflexivity) G ltac:(intros N; exact (proj2 (K N)))) as [G' _].
    split; [exact G'|]. closed_facts.
  - (* call *)
    intros p n f f' args args' table _ IHf IHa eq Q G K. cbn [grammatical] in *.
    destruct G as [Gf [Lf Ga]].
    destruct (IHf eq ltac:(discriminate) Gf ltac:(intros N; exact (proj1 (proj2 (K N))))) as [Gf' Ff].
    destruct (IHa false ltac:(discriminate) Ga ltac:(intros N; exact (proj2 (proj2 (K N))))) as [Ga' _].
    pose proof (left_above f eq Gf) as Ab. unfold LEVEL_CALL, LEVEL_EQUAL, LEVEL_ARROW in Ab, Lf.
    split. { split; [exact Gf'|]. split; [|exact Ga']. apply (fa_right _ _ _ Ff 18); [left; discriminate|exact Lf]. }
    constructor; cbn [left_least right_least wants_else comparison is_leaf]; auto;
      unfold LEVEL_ARROW, LEVEL_EQUAL, LEVEL_CALL.
    + intros k A H. pose proof (fa_left _ _ _ Ff k A). lia.
    + intros A H. pose proof (fa_left4 _ _ _ Ff (or_introl eq_refl)) as X. unfold LEVEL_ARROW in X. lia.
    + intros A H U. pose proof (fa_left4 _ _ _ Ff (or_introl eq_refl)) as X. unfold LEVEL_ARROW in X. lia.
    + intros [? [? X]]; discriminate X.
  - (* arguments *)
    intros p n k rc l l' F eq Q G K. cbn [grammatical] in *. destruct G as [Gh G].
    destruct (Gr_all p_item false l l' F ltac:(discriminate) G) as [G' Fs].
    { apply kept_all. intros N. exact (proj2 (K N)). }
    split; [|closed_facts]. split; [|exact G'].
    intros m sl ->. inversion Fs as [|x ? l0 ? Hx F2]; subst. inversion F2; subst.
    destruct (fa_hole _ _ _ Hx) as [m' [sl' ->]]; [eexists _, _; reflexivity|].
    exact (Gh _ _ eq_refl).
  - (* table *)
    intros p n rc l _ eq Q G K. split; [exact G|]. closed_facts.
  - (* argument *)
    intros p n nm nm' v v' sl Fn Fv eq Q G K. cbn [grammatical] in *. destruct G as [Gn Gv].
    split.
    { split.
      - apply (Gr_opt p_plain false nm nm' Fn); auto.
        intros N. exact (proj1 (proj2 (K N))).
      - apply (Gr_opt p_plain false v v' Fv); auto.
        intros N. exact (proj2 (proj2 (K N))). }
    constructor; cbn [left_least right_least wants_else comparison is_leaf]; auto.
    + unfold LEVEL_ARROW, LEVEL_TOP. lia.
    + intros [m [sl' X]]. injection X as _ -> -> _. inversion Fn; subst. inversion Fv; subst.
      eexists _, _. reflexivity.
  - (* name *)
    intros p n a a' IH eq Q G K. cbn [grammatical] in *. destruct G as [La G].
    destruct (IH false ltac:(discriminate) G ltac:(intros N; exact (proj2 (K N)))) as [G' Fa].
    split; [split; [exact (fa_leaf _ _ _ Fa La)|exact G']|]. closed_facts.
  - (* if *)
    intros w n c c' t t' el el' IHc IHt IHe _ eq qe G K. cbn [grammatical] in *.
    destruct G as [Gc [Gt [Lt [We Ge]]]].
    destruct (IHc false ltac:(discriminate) Gc ltac:(intros N; exact (proj1 (proj2 (K N))))) as [Gc' _].
    destruct (IHt Gt ltac:(intros N; exact (proj1 (proj2 (proj2 (K N)))))) as [Gt' [Lt' [Et1 Et2]]].
    assert (Ke : opt_all kept el).
    { destruct el as [x|]; [|exact I]. intros N. exact (proj2 (proj2 (proj2 (K N)))). }
    destruct (IHe Ge Ke) as [Ge' Re].
    split.
    { split; [exact Gc'|]. split; [exact Gt'|]. split; [auto|]. split; [|exact Ge'].
      intros N. apply Et2, We. intros ->. inversion Re; subst. contradiction. }
    destruct Re as [|x x' [Ex1 Ex2]].
    + constructor; cbn [left_least right_least wants_else comparison is_leaf]; auto.
      * unfold LEVEL_ARROW, LEVEL_TOP. lia.
      * intros k A H. specialize (Et1 k A). lia.
      * intros [? [? X]]; discriminate X.
    + constructor; cbn [left_least right_least wants_else comparison is_leaf]; auto.
      * unfold LEVEL_ARROW, LEVEL_TOP. lia.
      * intros k A H. specialize (Ex1 k A). lia.
      * intros [? [? X]]; discriminate X.
  - (* no else *)
    intros w _ _. split; [exact I|constructor].
  - (* else if *)
    intros w n nl a a' Ia IH G K. cbn [opt_all grammatical] in *. destruct G as [Ga La].
    destruct (IH true false Ga ltac:(intros N; exact (proj2 (K N)))) as [Ga' Fa].
    split. { split; [exact Ga'|]. apply (fa_left _ _ _ Fa LEVEL_BODY); [left; discriminate|exact La]. }
    constructor. split; cbn [right_least wants_else]; [apply (fa_right _ _ _ Fa)|apply (fa_else _ _ _ Fa)].
  - (* else *)
    intros w n nl a a' Ia IH G K. cbn [opt_all grammatical] in *. destruct G as [Ga La].
    destruct (IH Ga ltac:(intros N; exact (proj2 (K N)))) as [Ga' [La' Ea]].
    split; [auto|]. constructor. exact Ea.
  - (* braced body *)
    intros w b b' Ib IH G K. destruct (IH true ltac:(reflexivity) G K) as [G' F].
    split; [exact G'|]. split; [apply (fa_left _ _ _ F LEVEL_BODY); left; discriminate|].
    split; [apply (fa_right _ _ _ F)|apply (fa_else _ _ _ F)].
  - (* braces added *)
    intros b b' Ib IH G K. destruct (IH true ltac:(reflexivity) G K) as [G' F].
    split; [split; [exact G'|exact I]|]. cbn [add_braces left_least].
    split; [unfold LEVEL_BODY, LEVEL_TOP; lia|]. split; [|reflexivity].
    intros k A H. change (k <= LEVEL_TOP).
    assert (T : right_least b <= LEVEL_TOP).
    { clear. induction b using expr_ind'; cbn [right_least]; try lia.
      destruct e as [x|]; cbn [Popt] in *; lia. }
    lia.
  - (* plain *)
    intros b b' Ib IH G K. destruct (IH true ltac:(reflexivity) G K) as [G' F].
    split; [exact G'|]. split; [apply (fa_left _ _ _ F LEVEL_BODY); left; discriminate|].
    split; [apply (fa_right _ _ _ F)|apply (fa_else _ _ _ F)].
Qed.
End Grammar.

(** * The same program *)

Lemma settle_drop x : settle (drop_cr x) = settle x.
Proof.
  induction x as [|c x IH]; [reflexivity|]. cbn [drop_cr].
  destruct x as [|d x]; [reflexivity|].
  destruct ((c =? CR)%N && (d =? LF)%N) eqn:E.
  - rewrite IH. cbn [settle fold_right] in *. fold (settle x).
    assert (S : exists q, settle (d :: x) = d :: q).
    { apply andb_prop in E. destruct E as [_ E]. apply N.eqb_eq in E. subst d.
      cbn [settle fold_right]. fold (settle x). destruct (settle x) as [|b q]; [eexists; reflexivity|].
      change ((LF =? CR)%N) with false. cbn [andb]. eexists; reflexivity. }
    destruct S as [q S]. unfold settle in S. cbn [fold_right] in S. fold (settle x) in S.
    rewrite S. rewrite E. reflexivity.
  - change (settle (c :: drop_cr (d :: x)) = settle (c :: d :: x)).
    unfold settle at 1 2. cbn [fold_right]. fold (settle (drop_cr (d :: x))).
    rewrite IH. reflexivity.
Qed.
Lemma settled_same t t' : same_token t t' -> settled t' = settled t.
Proof.
  unfold same_token, settled. destruct (kind_eqb (t_kind t) STRING_CONTENT) eqn:E.
  - intros [H1 H2]. rewrite H1, H2, without_drop, settle_drop.
    change (kind_eqb STRING_CONTENT STRING_CONTENT) with true. reflexivity.
  - intros ->. rewrite E. reflexivity.
Qed.
Lemma settled_all ts ts' : Forall2 same_token ts ts' -> map settled ts' = map settled ts.
Proof. induction 1; cbn [map]; [reflexivity|]. f_equal; [apply settled_same; assumption|assumption]. Qed.

Section Same.
Variable o : format_options.
Let st := o_assignment_style o.

Lemma plain_same op op' : same_token op op' -> plain_op st op' = plain_op st op.
Proof.
  intros S. unfold plain_op. rewrite (same_kind _ _ S), (settled_same _ _ S). reflexivity.
Qed.
Lemma plain_restyled qe op op' : restyled st qe op op' -> plain_op st op' = plain_op st op.
Proof.
  intros R.
  assert (C : same_token op op' \/ (st = AArrow /\ t_kind op = EQUAL /\ op' = tARROW) \/
              (st = AEqual /\ t_kind op = ASSIGN /\ op' = tEQUAL)).
  { unfold restyled in R. destruct st, qe; destruct (t_kind op) eqn:Ek; auto. }
  destruct C as [S|[[Es [Ek ->]]|[Es [Ek ->]]]]; [exact (plain_same _ _ S)| |];
    unfold plain_op; rewrite Es, Ek; reflexivity.
Qed.

Definition citem (i : option term * option term) : option term * option term :=
  let '(x, y) := i in (omap (canon st) x, omap (canon st) y).

(** A node with what it stands for in its parent. *)
Definition code (e : expr) : term :=
  match e with
  | EParams _ l => Apply (Atom []) KCall (map param_term l)
  | EParam _ _ _ => Apply (Atom []) KCall [param_term e]
  | EArgs _ k _ l => Apply (Atom []) k (map arg_term l)
  | EArg _ _ _ _ => Apply (Atom []) KCall [arg_term e]
  | EDefault _ a | ENameClause _ a | EElse _ _ a => term_of a
  | _ => term_of e
  end.
Lemma code_expr e : sort_of e = SoExpr -> code e = term_of e.
Proof. destruct e; try discriminate; reflexivity. Qed.

Definition Cn (e e' : expr) : Prop := sort_of e' = sort_of e /\
  (shaped e -> canon st (code e') = canon st (code e)).
Definition CnB (b b' : expr) : Prop := is_sort SoExpr b ->
  sort_of b' = SoExpr /\ bare (canon st (term_of b')) = bare (canon st (term_of b)).
Definition CnE (el el' : option expr) : Prop := opt_all (is_sort SoElse) el ->
  omap (fun x => bare (canon st (code x))) el' = omap (fun x => bare (canon st (code x))) el /\
  opt_all (fun x => sort_of x = SoElse) el'.

Lemma Cn_expr e e' : Cn e e' -> is_sort SoExpr e -> canon st (term_of e') = canon st (term_of e).
Proof.
  intros [A B] [C D]. rewrite <- !code_expr by congruence. exact (B D).
Qed.
Lemma Cn_params l l' : Forall2 Cn l l' -> all_of (is_sort SoParam) l ->
  map citem (map param_term l') = map citem (map param_term l).
Proof.
  induction 1 as [|x y l l' [A B] F IH]; [reflexivity|]. intros [[So Sh] All].
  cbn [map]. rewrite (IH All). f_equal. specialize (B Sh). rewrite So in A.
  destruct x; try discriminate So; destruct y; try discriminate A.
  cbn [code canon map] in B. injection B as B1 B2. cbn [param_term citem omap].
  rewrite B1. f_equal. exact B2.
Qed.
Lemma Cn_args l l' : Forall2 Cn l l' -> all_of (is_sort SoArg) l ->
  map citem (map arg_term l') = map citem (map arg_term l).
Proof.
  induction 1 as [|x y l l' [A B] F IH]; [reflexivity|]. intros [[So Sh] All].
  cbn [map]. rewrite (IH All). f_equal. specialize (B Sh). rewrite So in A.
  destruct x; try discriminate So; destruct y; try discriminate A.
  cbn [code canon map] in B. injection B as B1 B2. cbn [arg_term citem].
  rewrite B1. f_equal. exact B2.
Qed.
Lemma not_curly b : sort_of b = SoExpr -> is_braced b = false -> shaped b ->
  bare (canon st (term_of b)) = canon st (term_of b).
Proof.
  destruct b; intros So Br Sh; try discriminate; try reflexivity.
  cbn [term_of]. cbn [shaped] in Sh. destruct Sh as [_ [Sa _]].
  destruct b2; try discriminate Sa. reflexivity.
Qed.
Lemma else_term el : opt_all (fun x => sort_of x = SoElse) el ->
  match el with Some (EElse _ _ a) => Some (term_of a) | _ => None end = omap code el.
Proof. destruct el as [x|]; [|reflexivity]. cbn [opt_all]. destruct x; try discriminate; reflexivity. Qed.

Lemma tidy_Cn p e e' : tidy o p e e' -> Cn e e'.
Proof.
  revert p e e'.
  apply (tidy_ind' o (fun _ => Cn) (fun _ => Cn) (fun _ => CnE) (fun _ => CnB)).
  - intros p e _. split; auto.
  - intros p n k ts ts' F. split; [reflexivity|]. intros _. cbn [code term_of canon].
    f_equal. apply settled_all, F.
  - intros p n op op' a a' Sm IH. split; [reflexivity|]. intros Sh. cbn [code term_of canon].
    rewrite (settled_same _ _ Sm), (Cn_expr _ _ IH Sh). reflexivity.
  - intros p n l l' op op' r r' table Rs _ IHl IHr _ _. split; [reflexivity|]. intros [S1 S2].
    cbn [code term_of canon].
    rewrite (plain_restyled _ _ _ Rs), (Cn_expr _ _ IHl S1), (Cn_expr _ _ IHr S2). reflexivity.
  - intros p n l l' op op' r r' Sm IHl IHr. split; [reflexivity|]. intros [S1 S2].
    cbn [code term_of canon].
    rewrite (plain_same _ _ Sm), (Cn_expr _ _ IHl S1), (Cn_expr _ _ IHr S2). reflexivity.
  - intros p n l l' op op' r r' Sm IHl IHr. split; [reflexivity|]. intros [S1 S2].
    cbn [code term_of canon].
    rewrite (plain_same _ _ Sm), (Cn_expr _ _ IHl S1), (Cn_expr _ _ IHr S2). reflexivity.
  - intros p n kw kw' ps ps' w b b' Sm [A B] IHb _. split; [reflexivity|]. intros [[So Shp] S2].
    specialize (B Shp). rewrite So in A.
    destruct ps; try discriminate So; destruct ps'; try discriminate A.
    cbn [code canon] in B. injection B as B. cbn [code term_of canon].
    fold param_term. rewrite (settled_same _ _ Sm), (proj2 (IHb S2)).
    f_equal. exact B.
  - intros p n l l' F. split; [reflexivity|]. intros Sh. cbn [code canon].
    f_equal. exact (Cn_params _ _ F Sh).
  - intros p n a a' d d' IHa Fd. split; [reflexivity|]. intros [S1 S2]. cbn [code canon map param_term omap].
    rewrite (Cn_expr _ _ IHa S1). f_equal. f_equal. f_equal.
    destruct Fd as [|x x' [A B]]; [reflexivity|]. destruct S2 as [So Sx]. specialize (B Sx).
    rewrite So in A. destruct x; try discriminate So; destruct x'; try discriminate A.
    cbn [code omap] in *. rewrite B. reflexivity.
  - intros p n v v' IH. split; [reflexivity|]. intros Sh. exact (Cn_expr _ _ IH Sh).
  - intros p w e e' IH _. exact IH.
  - intros p n v v' s s' b b' IHv IHs IHb. split; [reflexivity|]. intros [S1 [S2 S3]].
    cbn [code term_of canon].
    rewrite (Cn_expr _ _ IHv S1), (Cn_expr _ _ IHs S2), (proj2 (IHb S3)). reflexivity.
  - intros p n c c' b b' IHc IHb. split; [reflexivity|]. intros [S1 S2].
    cbn [code term_of canon]. rewrite (Cn_expr _ _ IHc S1), (proj2 (IHb S2)). reflexivity.
  - intros p n b b' IHb. split; [reflexivity|]. intros S.
    cbn [code term_of canon]. rewrite (proj2 (IHb S)). reflexivity.
  - intros p n l l' F. split; [reflexivity|]. intros Sh. cbn [code term_of canon]. f_equal.
    cbn [shaped] in Sh. induction F as [|a b l l' H F IH]; [reflexivity|]. destruct Sh as [S1 S2].
    cbn [map]. rewrite (Cn_expr _ _ H S1), (IH S2). reflexivity.
  - intros p n b b' IH. split; [reflexivity|]. intros Sh. cbn [code term_of canon].
    rewrite (Cn_expr _ _ IH Sh). reflexivity.
  - intros p n f f' args args' table _ IHf [A B]. split; [reflexivity|]. intros [S1 [So S2]].
    specialize (B S2). rewrite So in A.
    destruct args; try discriminate So; destruct args'; try discriminate A.
    cbn [code canon] in B. injection B as B0 B. cbn [code term_of canon].
    fold arg_term. rewrite (Cn_expr _ _ IHf S1). f_equal; [exact B0|exact B].
  - intros p n k rc l l' F. split; [reflexivity|]. intros Sh. cbn [code canon].
    f_equal. exact (Cn_args _ _ F Sh).
  - intros p n rc l _. split; auto.
  - intros p n nm nm' v v' sl Fn Fv. split; [reflexivity|]. intros [S1 S2].
    cbn [code canon map arg_term].
    f_equal. f_equal. f_equal.
    + destruct Fn as [|x x' [A B]]; [reflexivity|]. destruct S1 as [So Sx]. specialize (B Sx).
      rewrite So in A. destruct x; try discriminate So; destruct x'; try discriminate A.
      cbn [code omap] in *. rewrite B. reflexivity.
    + destruct Fv as [|x x' Hx]; [reflexivity|]. cbn [omap]. rewrite (Cn_expr _ _ Hx S2). reflexivity.
  - intros p n a a' IH. split; [reflexivity|]. intros Sh. exact (Cn_expr _ _ IH Sh).
  - intros w n c c' t t' el el' IHc IHt IHe _. split; [reflexivity|]. intros [S1 [S2 S3]].
    destruct (IHe S3) as [E1 E2]. cbn [code term_of canon].
    rewrite (Cn_expr _ _ IHc S1), (proj2 (IHt S2)). f_equal.
    rewrite else_term by exact E2.
    rewrite else_term by (destruct el as [x|]; [exact (proj1 S3)|exact I]).
    destruct el, el'; cbn [omap] in *; auto.
  - intros w _. split; [reflexivity|exact I].
  - intros w n nl a a' Ia IH [_ S]. cbn [shaped] in S. split; [|reflexivity].
    cbn [omap code]. rewrite (Cn_expr _ _ IH S). reflexivity.
  - intros w n nl a a' Ia IH [_ S]. cbn [shaped] in S. split; [|reflexivity].
    cbn [omap code]. rewrite (proj2 (IH S)). reflexivity.
  - intros w b b' Ib IH S. split; [destruct IH, S; congruence|]. rewrite (Cn_expr _ _ IH S). reflexivity.
  - intros b b' Ib IH S. split; [reflexivity|].
    cbn [add_braces term_of map canon bare]. rewrite (Cn_expr _ _ IH S).
    symmetry. apply not_curly; [apply S|exact Ib|apply S].
  - intros b b' Ib IH S. split; [destruct IH, S; congruence|]. rewrite (Cn_expr _ _ IH S). reflexivity.
Qed.
End Same.

(** * Whole files *)

Lemma tidied_file o es es' :
  Forall2 (tidy o (p_stmt true)) es es' ->
  all_of (fun x => sort_of x = SoExpr /\ shaped x) es -> all_of (grammatical true) es ->
  all_of (restylable (o_assignment_style o)) es ->
  parses (program es') (map term_of es') /\
  same_program (o_assignment_style o) (map term_of es) (map term_of es').
Proof.
  intros F Sh G R.
  assert (H : all_of (fun x => sort_of x = SoExpr /\ shaped x) es' /\ all_of (grammatical true) es' /\
              same_program (o_assignment_style o) (map term_of es) (map term_of es')).
  { unfold same_program. induction F as [|x y l l' T F IH]; [auto|].
    destruct Sh as [S1 S2], G as [G1 G2], R as [R1 R2]. destruct (IH S2 G2 R2) as [I1 [I2 I3]].
    pose proof (Shp_is SoExpr _ _ (tidy_Shp o _ _ _ T) S1) as Sy.
    destruct (tidy_Gr o _ _ _ T true ltac:(reflexivity) G1) as [Gy _].
    { intros N. destruct R1 as [R1|R1]; [contradiction|exact R1]. }
    pose proof (Cn_expr o _ _ (tidy_Cn o _ _ _ T) S1) as Cy.
    split; [split; [exact Sy|exact I1]|]. split; [split; [exact Gy|exact I2]|].
    cbn [map]. rewrite I3, Cy. reflexivity. }
  destruct H as [H1 [H2 H3]]. split; [exact (program_parses es' H1 H2)|exact H3].
Qed.
