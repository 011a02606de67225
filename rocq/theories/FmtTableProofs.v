(** Tables: rows and columns of the output. *)
From Coq Require Import List Arith Bool NArith Lia String.
From Verif Require Import Text LineEndingModel LineEndingSpec SettingsModel SyntaxKind
  DirectiveModel FmtTree IrModel TableModel FmtModel FmtSpec FmtPathSpec FmtTableSpec FmtProofs
  FmtRunProofs FmtListProofs FmtTidyProofs FmtRootProofs FmtFactProofs FmtPathProofs FmtEdgeProofs
  FmtSkipProofs FmtBlankProofs FmtMarkProofs.
Import ListNotations.

(** * What a document depends on *)

Section Like.
Variable o : format_options.
Variable pc : doc -> option (list piece).

Definition like (anc anc' : list frame) : Prop :=
  can_normalize_to_equal anc = can_normalize_to_equal anc' /\
  can_have_directive anc = can_have_directive anc' /\
  value_position anc = value_position anc' /\
  has_argument_parent anc = has_argument_parent anc'.
Lemma like_cons f anc anc' : like anc anc' -> like (f :: anc) (f :: anc').
Proof.
  intros [A [B [C D]]]. split; [|split; [|split]].
  - destruct f; try reflexivity. cbn [can_normalize_to_equal]. rewrite A. reflexivity.
  - destruct f; reflexivity.
  - destruct f; reflexivity.
  - unfold has_argument_parent in *. cbn [existsb]. rewrite D. reflexivity.
Qed.
Lemma like_has d anc anc' n : like anc anc' -> has_directive d anc n = has_directive d anc' n.
Proof. intros [_ [B _]]. unfold has_directive. rewrite B. reflexivity. Qed.
Lemma like_node anc anc' e f f' g : like anc anc' -> f = f' ->
  node_rule o anc e f g = node_rule o anc' e f' g.
Proof.
  intros L ->. unfold node_rule, suppressed. rewrite (like_has DSkip _ _ _ L). reflexivity.
Qed.
Lemma like_soft anc anc' e f f' : like anc anc' -> f = f' ->
  node_rule_soft o anc e f = node_rule_soft o anc' e f'.
Proof. apply like_node. Qed.

Lemma spine_like N (IH : forall x, esize x < N -> forall anc anc' fo, like anc anc' ->
    fmt o pc anc fo x = fmt o pc anc' fo x) :
  forall l, esize l < N -> forall anc anc', like anc anc' -> spine o pc anc l = spine o pc anc' l.
Proof.
  assert (Stop : forall l, esize l < N -> forall anc anc', like anc anc' ->
    (fmt o pc anc fo0 l, []) = (fmt o pc anc' fo0 l, []) :> (doc * list tail_piece)).
  { intros l Sz anc anc' L. rewrite (IH l Sz anc anc' fo0 L). reflexivity. }
  induction l as [| | n l op r IHl IHr| | | | | | | | | | | | | | | | |] using expr_ind';
    intros Sz anc anc' L; try exact (Stop _ Sz anc anc' L).
  cbn [spine]. destruct (is_chain_op op); [|exact (Stop _ Sz anc anc' L)].
  cbn [esize] in Sz. rewrite (IHl ltac:(lia) _ _ (like_cons (FBinary op) _ _ L)).
  rewrite (IH r ltac:(lia) _ _ fo0 (like_cons (FBinary op) _ _ L)). reflexivity.
Qed.

Lemma fmt_like : forall N e, esize e < N -> forall anc anc' fo, like anc anc' ->
  fmt o pc anc fo e = fmt o pc anc' fo e.
Proof.
  induction N as [|N IH]; intros e Sz anc anc' fo L; [lia|].
  assert (R : forall x f fo, esize x < esize e ->
    fmt o pc (f :: anc) fo x = fmt o pc (f :: anc') fo x).
  { intros x f fo' H. apply IH; [lia|]. apply like_cons, L. }
  assert (R2 : forall x f g fo, esize x < esize e ->
    fmt o pc (f :: g :: anc) fo x = fmt o pc (f :: g :: anc') fo x).
  { intros x f g fo' H. apply IH; [lia|]. apply like_cons, like_cons, L. }
  assert (R3 : forall x f g h fo, esize x < esize e ->
    fmt o pc (f :: g :: h :: anc) fo x = fmt o pc (f :: g :: h :: anc') fo x).
  { intros x f g h fo' H. apply IH; [lia|]. apply like_cons, like_cons, like_cons, L. }
  destruct e.
  - apply like_soft; [exact L|reflexivity].
  - cbn [fmt]. apply like_soft; [exact L|]. rewrite R by (cbn [esize]; lia). reflexivity.
  - destruct (classify (t_kind op)) eqn:C.
    3: { rewrite !fmt_chain by exact C. apply like_soft; [exact L|].
      rewrite (spine_like N) with (anc' := FBinary op :: anc').
      - rewrite R by (cbn [esize]; lia). reflexivity.
      - intros x Sx a a' f La. apply IH; assumption.
      - cbn [esize] in Sz. lia.
      - apply like_cons, L. }
    all: cbn [fmt]; rewrite C; apply like_soft; [exact L|].
    + rewrite !R by (cbn [esize]; lia). reflexivity.
    + rewrite !R by (cbn [esize]; lia). unfold rule_assignment, rhs_options, restyle.
      rewrite (like_has DTable _ _ n L). destruct L as [A _]. rewrite A. reflexivity.
    + rewrite !R by (cbn [esize]; lia). reflexivity.
    + reflexivity.
  - cbn [fmt]. apply like_soft; [exact L|]. rewrite !R by (cbn [esize]; lia). reflexivity.
  - cbn [fmt]. apply like_soft; [exact L|]. rewrite !R by (cbn [esize]; lia). reflexivity.
  - cbn [fmt]. apply like_soft; [exact L|]. rewrite !R by (cbn [esize]; lia). reflexivity.
  - cbn [fmt]. apply like_node; [exact L|]. f_equal. apply map_ext_in. intros x I.
    rewrite R; [reflexivity|]. pose proof (esize_In x items I). cbn [esize]. lia.
  - cbn [fmt]. apply like_soft; [exact L|]. rewrite R by (cbn [esize]; lia).
    destruct dflt; [|reflexivity]. rewrite R by (cbn [esize]; lia). reflexivity.
  - cbn [fmt]. apply like_soft; [exact L|]. rewrite !R by (cbn [esize]; lia). reflexivity.
  - cbn [fmt]. apply like_soft; [exact L|].
    assert (B : compute_braced anc e2 e3 = compute_braced anc' e2 e3).
    { unfold compute_braced. destruct L as [_ [_ [E _]]]. rewrite E. reflexivity. }
    rewrite B. rewrite !R by (cbn [esize]; lia). destruct e3; [|reflexivity].
    rewrite !R by (cbn [esize]; lia). reflexivity.
  - cbn [fmt]. apply like_soft; [exact L|]. rewrite !R by (cbn [esize]; lia). reflexivity.
  - cbn [fmt]. apply like_soft; [exact L|]. rewrite !R by (cbn [esize]; lia). reflexivity.
  - cbn [fmt]. apply like_soft; [exact L|]. rewrite !R by (cbn [esize]; lia). reflexivity.
  - cbn [fmt]. apply like_soft; [exact L|]. rewrite !R by (cbn [esize]; lia). reflexivity.
  - cbn [fmt]. apply like_node; [exact L|].
    assert (V : variant_of anc n es = variant_of anc' n es).
    { unfold variant_of. destruct L as [_ [_ [_ E]]]. rewrite E. reflexivity. }
    rewrite V. f_equal.
    + f_equal. assert (S : forall x, In x es -> esize x < esize (EBraced n es)).
      { intros x I. pose proof (esize_In x es I). cbn [esize]. lia. }
      assert (R' : forall x f, In x es -> fmt o pc (f :: anc) fo0 x = fmt o pc (f :: anc') fo0 x).
      { intros x f I. apply R, S, I. }
      clear - R'. induction es as [|x l IHl]; [reflexivity|].
      rewrite R' by (left; reflexivity). rewrite IHl by (intros; apply R'; right; assumption).
      reflexivity.
    + destruct es as [|x [|y l]]; try reflexivity; destruct x; try reflexivity.
      destruct es as [|z [|]]; try reflexivity; apply R2. cbn [esize fold_right]. lia.
  - cbn [fmt]. apply like_soft; [exact L|]. rewrite !R by (cbn [esize]; lia). reflexivity.
  - cbn [fmt]. apply like_soft; [exact L|]. rewrite !R by (cbn [esize]; lia).
    unfold call_options. rewrite (like_has DTable _ _ n L). reflexivity.
  - rewrite !fmt_args. apply like_node; [exact L|]. f_equal. apply map_ext_in. intros x I.
    assert (S : esize x < esize (EArgs n k rc items)).
    { pose proof (esize_In x items I). cbn [esize]. lia. }
    unfold arg_info. rewrite R by exact S.
    destruct x as [| | | | | | | | | | | | | | | | | |nx nm v sl|]; try reflexivity.
    cbn [esize] in S. f_equal.
    + destruct nm, v; rewrite ?R2 by (cbn [esize] in *; lia); reflexivity.
    + destruct v as [v|]; [|reflexivity]. destruct v; try reflexivity.
      destruct nm; rewrite ?R2 by (cbn [esize] in *; lia); reflexivity.
    + destruct v as [v|]; [|reflexivity]. destruct v; try reflexivity.
      rewrite R3 by (cbn [esize] in *; lia). reflexivity.
  - cbn [fmt]. apply like_soft; [exact L|].
    destruct nm, v; rewrite ?R by (cbn [esize]; lia); reflexivity.
  - cbn [fmt]. apply like_soft; [exact L|]. rewrite !R by (cbn [esize]; lia). reflexivity.
Qed.

(** The cells of a table do not depend on where the call is. *)
Lemma fields_like anc anc' x : ai_fields (arg_info o pc anc x) = ai_fields (arg_info o pc anc' x).
Proof.
  assert (L : like (FArg :: FArgList :: anc) (FArg :: FArgList :: anc')) by (repeat split).
  destruct x; try reflexivity. cbn [arg_info ai_fields].
  destruct nm, v; rewrite ?(fmt_like _ _ (Nat.lt_succ_diag_r _) _ _ _ L); reflexivity.
Qed.
End Like.

(** * Building the table *)

Section Build.
Variable A : Type.
Variable node : A -> expr.
Variable other : A -> option (list piece).

Lemma build_none : forall args rs row cs,
  build_loop A node other rs row cs args = None <->
  exists pre a sep post, args = pre ++ (a, sep) :: post /\
    Forall (fun x => arg_named (node (fst x)) = false) pre /\ arg_named (node a) = false /\
    parse_kind (arg_value (node a)) (other a) = None.
Proof.
  induction args as [|[a sep] args IH]; intros rs row cs; cbn [build_loop].
  - split; [discriminate|]. intros [[|] [a [sep [post [E _]]]]]; discriminate.
  - destruct (arg_named (node a)) eqn:EN.
    + split; [discriminate|]. intros [pre [b [sb [post [E [F [N _]]]]]]].
      destruct pre as [|x pre]; injection E as <- E; subst.
      * congruence.
      * inversion F. subst. cbn [fst] in *. congruence.
    + destruct (parse_kind (arg_value (node a)) (other a)) as [k|] eqn:EK.
      * rewrite IH. split; intros [pre [b [sb [post [E [F [N K]]]]]]].
        -- exists ((a, sep) :: pre), b, sb, post. subst. repeat split; try assumption.
           constructor; assumption.
        -- destruct pre as [|x pre]; injection E as E1 E; [congruence|]. subst.
           inversion F. subst. exists pre, b, sb, post. auto.
      * split; [|reflexivity]. intros _. exists [], a, sep, args. auto.
Qed.

(** A column that has room for a cell. *)
Definition roomy (c : column) (k : arg_kind) : Prop :=
  max_width c = max_value_width c /\ kind_width k <= max_value_width c /\
  match k with
  | Numeric iw fw =>
    iw <= max_integer_part c /\
    match fw with Some f => f <= max_fractional_part c /\ has_decimal c = true | None => True end
  | Other _ => True
  end.
Definition even (c : column) : Prop := max_width c = max_value_width c.
Lemma update_even c k : even c -> even (update_column c k).
Proof.
  unfold even, update_column. intros E. destruct k as [iw [fw|]|ps]; cbn; rewrite E; reflexivity.
Qed.
Lemma update_roomy c k : even c -> roomy (update_column c k) k.
Proof.
  intros E. split; [exact (update_even c k E)|].
  unfold update_column. destruct k as [iw [fw|]|ps]; cbn [max_value_width max_integer_part
    max_fractional_part has_decimal kind_width]; repeat split; lia.
Qed.
Lemma update_keeps c k k' : roomy c k -> roomy (update_column c k') k.
Proof.
  intros [E [W R]]. split; [exact (update_even c k' E)|].
  unfold update_column. destruct k' as [iw' [fw'|]|ps']; cbn [max_value_width max_integer_part
    max_fractional_part has_decimal kind_width]; (split; [lia|]); destruct k as [iw [fw|]|ps];
    try exact I; destruct R as [R1 R2]; (split; [lia|]); try exact I;
    destruct R2 as [R2 R3]; split; lia || assumption || reflexivity.
Qed.
Lemma nth_update : forall j cs i k,
  nth i (update_columns cs j k) column_default =
  if i =? j then update_column (nth j cs column_default) k else nth i cs column_default.
Proof.
  induction j as [|j IH]; intros cs i k.
  - destruct cs as [|c cs], i as [|i]; cbn; try reflexivity. destruct i; reflexivity.
  - destruct cs as [|c cs]; destruct i as [|i]; cbn [update_columns nth]; try reflexivity.
    + rewrite IH. cbn [Nat.eqb]. destruct (i =? j); destruct i, j; reflexivity.
    + rewrite IH. reflexivity.
Qed.
Definition evens (cs : list column) : Prop := forall i, even (nth i cs column_default).
Lemma update_evens cs j k : evens cs -> evens (update_columns cs j k).
Proof.
  intros E i. rewrite nth_update. destruct (i =? j); [apply update_even, E|apply E].
Qed.

Fixpoint roomy_row (cs : list column) (j : nat) (row : list (cell A)) : Prop :=
  match row with
  | [] => True
  | c :: r => roomy (nth j cs column_default) (ce_kind A c) /\ roomy_row cs (S j) r
  end.
Lemma roomy_row_update cs i k : forall row j, roomy_row cs j row -> roomy_row (update_columns cs i k) j row.
Proof.
  induction row as [|c row IH]; intros j H; [exact I|]. destruct H as [H1 H2].
  split; [|exact (IH _ H2)]. rewrite nth_update. destruct (j =? i) eqn:E; [|exact H1].
  apply Nat.eqb_eq in E. subst. apply update_keeps, H1.
Qed.
Lemma roomy_row_snoc cs c : forall row j, roomy_row cs j row ->
  roomy (nth (j + List.length row) cs column_default) (ce_kind A c) -> roomy_row cs j (row ++ [c]).
Proof.
  induction row as [|x row IH]; intros j H R; cbn [app roomy_row List.length] in *.
  - rewrite Nat.add_0_r in R. auto.
  - destruct H as [H1 H2]. split; [exact H1|]. apply IH; [exact H2|].
    replace (S j + List.length row) with (j + S (List.length row)) by lia. exact R.
Qed.

(** The rows so far. *)
Definition next (c : cell A) : Prop := on_next_line (node (ce_arg A c), ce_sep A c).
Definition line_row (row : list (cell A)) : Prop :=
  exists c r, row = c :: r /\ Forall (fun c => ~ next c) r.
Definition line_rows (rs : list (list (cell A))) : Prop :=
  Forall line_row rs /\
  match rs with [] => True | _ :: rest => Forall (fun row => exists c r, row = c :: r /\ next c) rest end.
Definition so_far (rs : list (list (cell A))) (row : list (cell A)) : list (list (cell A)) :=
  if List.length row =? 0 then rs else rs ++ [row].
Definition fair (cs : list column) (rs : list (list (cell A))) : Prop :=
  line_rows rs /\ Forall (roomy_row cs 0) rs /\
  Forall (Forall (fun c => arg_named (node (ce_arg A c)) = false /\
    parse_kind (arg_value (node (ce_arg A c))) (other (ce_arg A c)) = Some (ce_kind A c))) rs.

Lemma cell_lines_next a sep : sort_of a = SoArg -> (0 <? cell_lines a sep) = true <-> on_next_line (a, sep).
Proof.
  intros S. destruct a; try discriminate. unfold on_next_line. cbn [fst snd cell_lines].
  destruct v.
  - apply Nat.ltb_lt.
  - destruct sep; rewrite Nat.ltb_lt; [split; [auto|intros []; auto]|split; [lia|intros []; discriminate]].
Qed.

Lemma build_fair : forall args rs row cs t,
  Forall (fun x => sort_of (node (fst x)) = SoArg) args ->
  evens cs -> fair cs (so_far rs row) -> (row = [] -> rs = []) ->
  build_loop A node other rs row cs args = Some t ->
  fair (cols A t) (rows A t) /\
  map (fun c => (ce_arg A c, ce_sep A c)) (List.concat (rows A t)) ++ remaining A t =
    map (fun c => (ce_arg A c, ce_sep A c)) (List.concat (so_far rs row)) ++ args /\
  match remaining A t with [] => True | x :: _ => arg_named (node (fst x)) = true end.
Proof.
  induction args as [|[a sep] args IH]; intros rs row cs t So Ev Fa Em H; cbn [build_loop] in H.
  - injection H as <-. cbn [rows cols remaining]. auto.
  - destruct (arg_named (node a)) eqn:EN.
    { injection H as <-. cbn [rows cols remaining]. auto. }
    destruct (parse_kind _ _) as [k|] eqn:EK; [|discriminate].
    inversion So as [|? ? Sa So']; subst. cbn [fst] in Sa.
    set (c := {| ce_arg := a; ce_kind := k; ce_sep := sep |}) in *.
    set (b := (0 <? cell_lines (node a) sep) && negb (List.length row =? 0)) in *.
    set (rs' := if b then rs ++ [row] else rs) in *.
    set (row' := if b then [] else row) in *.
    assert (L : List.concat (so_far rs' (row' ++ [c])) = List.concat (so_far rs row) ++ [c]).
    { unfold so_far. replace (List.length (row' ++ [c]) =? 0) with false
        by (rewrite app_length; cbn; rewrite Nat.add_1_r; reflexivity).
      rewrite concat_app. cbn [List.concat]. rewrite app_nil_r. unfold rs', row', b.
      destruct row as [|c0 row].
      - rewrite andb_false_r. reflexivity.
      - cbn [List.length Nat.eqb negb]. rewrite andb_true_r. destruct (0 <? _).
        + rewrite concat_app. cbn [List.concat app]. rewrite ?app_nil_r. reflexivity.
        + rewrite concat_app. cbn [List.concat]. rewrite app_nil_r, <- app_assoc. reflexivity. }
    destruct (IH rs' (row' ++ [c]) (update_columns cs (List.length row') k) t So'
                (update_evens _ _ _ Ev)) as [F [E R]]; [|destruct row'; discriminate|exact H|].
    + destruct Fa as [[F1 F2] [F3 F4]].
      assert (Cr : roomy (nth (List.length row') (update_columns cs (List.length row') k) column_default) k).
      { rewrite nth_update, Nat.eqb_refl. apply update_roomy, Ev. }
      assert (Up : forall rs, Forall (roomy_row cs 0) rs ->
                Forall (roomy_row (update_columns cs (List.length row') k) 0) rs).
      { intros l. apply Forall_impl. intros x. apply roomy_row_update. }
      unfold so_far. replace (List.length (row' ++ [c]) =? 0) with false
        by (rewrite app_length; cbn; rewrite Nat.add_1_r; reflexivity).
      unfold rs', row', b in *. unfold so_far in F1, F2, F3, F4.
      destruct row as [|c0 row].
      * rewrite andb_false_r in *. rewrite (Em eq_refl) in *. cbn [app List.length Nat.eqb] in *.
        split; [split; [|constructor]|split].
        -- constructor; [|constructor]. exists c, []. auto.
        -- constructor; [|constructor]. split; [exact Cr|exact I].
        -- constructor; [|constructor]. constructor; [|constructor]. auto.
      * cbn [List.length Nat.eqb negb] in *. rewrite andb_true_r in *.
        destruct (0 <? cell_lines (node a) sep) eqn:EL.
        -- split; [split|split].
           ++ apply Forall_app. split; [exact F1|]. constructor; [|constructor]. exists c, []. auto.
           ++ assert (X : exists c2 r, [c] = c2 :: r /\ next c2)
                by (exists c, []; split; [reflexivity|]; apply cell_lines_next; assumption).
              destruct rs as [|r1 rs]; cbn [app] in F2 |- *.
              ** constructor; [exact X|constructor].
              ** apply Forall_app. split; [exact F2|]. constructor; [exact X|constructor].
           ++ apply Forall_app. split; [apply Up, F3|]. constructor; [|constructor]. split; [exact Cr|exact I].
           ++ apply Forall_app. split; [exact F4|]. constructor; [|constructor]. constructor; [|constructor]. auto.
        -- apply Forall_app in F1, F3, F4. destruct F1 as [F1 G1], F3 as [F3 G3], F4 as [F4 G4].
           inversion G1 as [|? ? [c1 [r1 [Er Fr]]] _]; subst. injection Er as <- <-.
           inversion G3; subst. inversion G4; subst.
           split; [split|split].
           ++ apply Forall_app. split; [exact F1|]. constructor; [|constructor].
              exists c0, (row ++ [c]). split; [reflexivity|]. apply Forall_app. split; [exact Fr|].
              constructor; [|constructor]. intros Nx. apply cell_lines_next in Nx; [|exact Sa].
              cbn [ce_arg ce_sep c] in Nx. congruence.
           ++ destruct rs as [|r1 rs]; cbn [app] in F2 |- *; [constructor|].
              apply Forall_app in F2. destruct F2 as [F2 G2]. apply Forall_app. split; [exact F2|].
              constructor; [|constructor]. inversion G2 as [|? ? [c1 [r2 [Er Nx]]] _]; subst.
              injection Er as <- <-. exists c0, (row ++ [c]). auto.
           ++ apply Forall_app. split; [apply Up, F3|]. constructor; [|constructor].
              change (roomy_row (update_columns cs (S (List.length row)) k) 0 ((c0 :: row) ++ [c])).
              apply roomy_row_snoc; [apply roomy_row_update; assumption|exact Cr].
           ++ apply Forall_app. split; [exact F4|]. constructor; [|constructor].
              change (Forall (fun c => arg_named (node (ce_arg A c)) = false /\
                parse_kind (arg_value (node (ce_arg A c))) (other (ce_arg A c)) = Some (ce_kind A c))
                ((c0 :: row) ++ [c])).
              apply Forall_app. split; [assumption|]. constructor; [|constructor]. auto.
    + split; [exact F|]. split; [|exact R]. rewrite E, L, map_app, <- app_assoc. reflexivity.
Qed.
Lemma build_table_fair args t :
  Forall (fun x => sort_of (node (fst x)) = SoArg) args ->
  build_table A node other args = Some t ->
  fair (cols A t) (rows A t) /\
  map (fun c => (ce_arg A c, ce_sep A c)) (List.concat (rows A t)) ++ remaining A t = args /\
  match remaining A t with [] => True | x :: _ => arg_named (node (fst x)) = true end.
Proof.
  intros So B. apply (build_fair args [] [] [] t So); [|split; [split; constructor|split; constructor]
    |reflexivity|exact B].
  intros [|i]; reflexivity.
Qed.
End Build.

(** * Widths *)

Definition span (c : column) : nat :=
  if 0 <? max_width c
  then if has_decimal c
       then Nat.max (max_value_width c) (max_integer_part c + 1 + max_fractional_part c)
       else max_value_width c
  else 0.
Definition units_end (c : column) : nat :=
  if has_decimal c then max_integer_part c else max_value_width c.
Lemma padding_span c k l r : roomy c k -> cell_padding c k = (l, r) -> l + kind_width k + r = span c.
Proof.
  intros [E [W R]]. unfold cell_padding, span. destruct (0 <? max_width c) eqn:EM.
  - unfold padding. destruct (has_decimal c) eqn:D.
    + unfold decimal_padding, DOT_WIDTH. destruct k as [iw [fw|]|ps]; intros H; injection H as <- <-;
        cbn [kind_width] in *; unfold DOT_WIDTH in *; lia.
    + unfold simple_padding. destruct k as [iw [fw|]|ps]; cbn [kind_width] in *; intros H; injection H as <- <-; lia.
  - intros H. injection H as <- <-. apply Nat.ltb_ge in EM. lia.
Qed.
Lemma padding_units c iw fw l r : roomy c (Numeric iw fw) -> 0 < kind_width (Numeric iw fw) ->
  cell_padding c (Numeric iw fw) = (l, r) -> l + iw = units_end c.
Proof.
  intros [E [W R]] P. unfold cell_padding, units_end.
  replace (0 <? max_width c) with true by (symmetry; apply Nat.ltb_lt; lia).
  unfold padding. destruct (has_decimal c) eqn:D.
  - unfold decimal_padding. intros H. injection H as <- <-. lia.
  - unfold simple_padding. intros H. injection H as <- <-. destruct R as [_ R].
    destruct fw as [fw|]; [destruct R; discriminate|]. cbn [kind_width] in *. lia.
Qed.
Lemma padding_other c ps l r : cell_padding c (Other ps) = (l, r) -> l = 0.
Proof.
  unfold cell_padding, padding, decimal_padding, simple_padding.
  destruct (0 <? max_width c), (has_decimal c); intros H; injection H as <- _; reflexivity.
Qed.
Lemma span_zero c k : roomy c k -> span c = 0 -> kind_width k = 0.
Proof.
  intros [E [W _]]. unfold span. destruct (0 <? max_width c) eqn:EM.
  - apply Nat.ltb_lt in EM. destruct (has_decimal c); lia.
  - apply Nat.ltb_ge in EM. lia.
Qed.

(** Where the columns begin and their commas stand. *)
Definition room (cs : list column) (j : nat) : nat :=
  match span (nth j cs column_default) with 0 => 0 | S w => S (S w) end.
Fixpoint comma_at (cs : list column) (j : nat) : nat :=
  match j with
  | 0 => room cs 0
  | S i => S (comma_at cs i) + 1 + room cs j
  end.
Definition start_at (cs : list column) (j : nat) : nat :=
  match j with 0 => 0 | S i => S (comma_at cs i) end.
Definition lead_in (j : nat) : nat := match j with 0 => 0 | S _ => 1 end.
Definition left_at (cs : list column) (j : nat) : nat := start_at cs j + lead_in j.
Definition point_at (cs : list column) (j : nat) : nat :=
  left_at cs j + units_end (nth j cs column_default).
Lemma comma_left cs j : comma_at cs j = left_at cs j + room cs j.
Proof. destruct j; unfold left_at; cbn [comma_at start_at lead_in]; lia. Qed.
