(** Tables in a file. *)
From Coq Require Import List Arith Bool NArith Lia String.
From Verif Require Import Text LineEndingModel LineEndingSpec SettingsModel SyntaxKind
  DirectiveModel FmtTree IrModel TableModel FmtModel FmtSpec FmtPathSpec FmtTableSpec FmtProofs
  FmtRunProofs FmtListProofs FmtTidyProofs FmtRootProofs FmtFactProofs FmtPathProofs FmtEdgeProofs
  FmtSkipProofs FmtBlankProofs FmtMarkProofs FmtTableProofs FmtRowProofs.
Import ListNotations.

(** * Arguments and separators *)

Lemma followed_app more b : forall a, followed more (a ++ b) =
  followed (match b with [] => more | _ => true end) a ++ followed more b.
Proof.
  induction a as [|x a IH]; [reflexivity|]. destruct a as [|y a].
  - destruct b; reflexivity.
  - change ((x :: y :: a) ++ b) with (x :: (y :: a) ++ b).
    change (followed more (x :: (y :: a) ++ b)) with ((x, true) :: followed more ((y :: a) ++ b)).
    rewrite IH. reflexivity.
Qed.
Lemma with_seps_followed l : with_seps l = followed false l.
Proof.
  induction l as [|x l IH]; [reflexivity|]. destruct l; [reflexivity|].
  change (with_seps (x :: e :: l)) with ((x, true) :: with_seps (e :: l)). rewrite IH. reflexivity.
Qed.
Lemma with_seps_map {A B} (f : A -> B) l :
  with_seps (map f l) = map (fun x => (f (fst x), snd x)) (with_seps l).
Proof.
  induction l as [|x l IH]; [reflexivity|]. destruct l as [|y l]; [reflexivity|].
  change (with_seps (map f (x :: y :: l))) with ((f x, true) :: with_seps (map f (y :: l))).
  change (with_seps (x :: y :: l)) with ((x, true) :: with_seps (y :: l)). rewrite IH. reflexivity.
Qed.
Lemma followed_fst more l : map fst (followed more l) = l.
Proof.
  induction l as [|x l IH]; [reflexivity|]. destruct l as [|y l]; [reflexivity|].
  change (followed more (x :: y :: l)) with ((x, true) :: followed more (y :: l)). cbn [map fst].
  rewrite IH. reflexivity.
Qed.
Lemma seps_followed more l : seps_ok (followed more l).
Proof.
  induction l as [|x l IH]; [exact I|]. destruct l as [|y [|z l]]; [exact I|split; [reflexivity|exact I]|].
  change (followed more (x :: y :: z :: l)) with ((x, true) :: followed more (y :: z :: l)).
  split; [reflexivity|exact IH].
Qed.
Lemma seps_app : forall a b, seps_ok (a ++ b) -> seps_ok a /\ seps_ok b.
Proof.
  induction a as [|x a IH]; intros b H; [split; [exact I|exact H]|].
  destruct a as [|y a].
  - split; [exact I|]. destruct b; [exact I|exact (proj2 H)].
  - change ((x :: y :: a) ++ b) with (x :: y :: (a ++ b)) in H. destruct H as [H1 H2].
    destruct (IH b H2) as [I1 I2]. split; [split; assumption|exact I2].
Qed.
Lemma seps_concat : forall l, seps_ok (List.concat l) -> Forall seps_ok l.
Proof.
  induction l as [|x l IH]; intros H; [constructor|]. cbn [List.concat] in H.
  destruct (seps_app _ _ H). constructor; auto.
Qed.

(** The first named argument is where the cells end. *)
Lemma cells_split {A} (named : A -> bool) : forall a b c d,
  a ++ b = c ++ d ->
  Forall (fun x => named x = false) a -> Forall (fun x => named x = false) c ->
  match b with [] => True | x :: _ => named x = true end ->
  match d with [] => True | x :: _ => named x = true end -> a = c /\ b = d.
Proof.
  induction a as [|x a IH]; intros b c d E Fa Fc Hb Hd.
  - destruct c as [|y c]; [auto|]. cbn [app] in E. subst b. inversion Fc; subst. congruence.
  - inversion Fa as [|? ? Fx Fa']; subst. destruct c as [|y c].
    + cbn [app] in E. subst d. congruence.
    + inversion Fc; subst. injection E as -> E. destruct (IH b c d E) as [-> ->]; auto.
Qed.

Section Grid.
Variable o : format_options.
Variable pc : doc -> option (list piece).
Hypothesis Cp : cell_printer pc.

Definition infos (anc : list frame) (items : list expr) : list (ainfo * bool) :=
  with_seps (map (arg_info o pc anc) items).
Definition tabled (anc : list frame) (items : list expr) : option (table ainfo) :=
  build_table ainfo ai_node (cell_text pc) (infos anc items).
Definition printable (anc : list frame) (x : expr) : Prop :=
  parse_kind (arg_value x) (cell_text pc (arg_info o pc anc x)) <> None.

Lemma printable_like anc anc' x : printable anc x -> printable anc' x.
Proof.
  unfold printable, cell_text. rewrite (fields_like o pc anc anc' x). exact (fun H => H).
Qed.

Lemma positional_unnamed l : Forall positional l -> Forall (fun x => arg_named x = false) l.
Proof. induction 1 as [|x l [n [v [sl ->]]] F IH]; constructor; auto. Qed.

Lemma tabled_none anc items cells named : cells_of items cells named ->
  (tabled anc items = None <-> Exists (fun x => ~ printable anc x) cells).
Proof.
  intros [-> [P Hd]]. unfold tabled, build_table. rewrite build_none. unfold infos.
  rewrite with_seps_map, with_seps_followed, followed_app, map_app.
  set (f := fun x : expr * bool => (arg_info o pc anc (fst x), snd x)).
  split.
  - intros [pre [a [sep [post [E [Fp [Na K]]]]]]].
    assert (Nm : forall l more, Forall positional l ->
      Forall (fun x : ainfo * bool => arg_named (ai_node (fst x)) = false) (map f (followed more l))).
    { intros l more Pl. apply Forall_forall. intros y Iy. apply in_map_iff in Iy.
      destruct Iy as [x [<- Ix]]. cbn [f fst arg_info ai_node].
      apply (proj1 (Forall_forall _ _) (positional_unnamed l Pl)). rewrite <- (followed_fst more l).
      apply in_map, Ix. }
    assert (Hp : In (a, sep) (map f (followed (match named with [] => false | _ => true end) cells))).
    { assert (I : In (a, sep) (map f (followed (match named with [] => false | _ => true end) cells)) \/
         exists q, pre = map f (followed (match named with [] => false | _ => true end) cells) ++ q /\
           map f (followed false named) = q ++ (a, sep) :: post).
      { clear -E. revert pre E.
        generalize (map f (followed (match named with [] => false | _ => true end) cells)).
        induction l as [|y l IH]; intros pre E.
        - right. exists pre. split; [reflexivity|exact E].
        - destruct pre as [|z pre]; injection E as -> E; [left; left; reflexivity|].
          destruct (IH pre E) as [I|[q [-> Q]]]; [left; right; exact I|].
          right. exists q. split; [reflexivity|exact Q]. }
      destruct I as [I|[q [-> Q]]]; [exact I|]. exfalso.
      destruct named as [|x named]; [destruct q; discriminate Q|].
      destruct Hd as [n [c [v [sl ->]]]].
      assert (Hx : exists s rest, map f (followed false (EArg n (Some c) v sl :: named)) =
        (arg_info o pc anc (EArg n (Some c) v sl), s) :: rest)
        by (destruct named; cbn [followed map]; eexists _, _; reflexivity).
      destruct Hx as [s [rest Hx]]. rewrite Hx in Q. destruct q as [|z q]; injection Q as Q _.
      - subst a. discriminate Na.
      - subst z. apply Forall_app in Fp. destruct Fp as [_ Fp]. inversion Fp as [|? ? X _]; subst.
        discriminate X. }
    apply in_map_iff in Hp. destruct Hp as [[x s] [E' I]]. injection E' as <- _.
    apply Exists_exists. exists x. split; [rewrite <- (followed_fst (match named with [] => false | _ => true end) cells); apply (in_map fst _ _ I)|].
    intros N. exact (N K).
  - intros Ex. apply Exists_exists in Ex. destruct Ex as [x [Ix Nx]].
    rewrite <- (followed_fst (match named with [] => false | _ => true end) cells) in Ix.
    apply in_map_iff in Ix. destruct Ix as [[x' s] [<- Ix]]. apply in_split in Ix.
    destruct Ix as [l1 [l2 E]]. rewrite E.
    assert (Pl : Forall (fun x => arg_named (fst x) = false) (l1 ++ (x', s) :: l2)).
    { rewrite <- E. apply Forall_forall. intros y Iy.
      apply (proj1 (Forall_forall _ _) (positional_unnamed cells P)).
      rewrite <- (followed_fst (match named with [] => false | _ => true end) cells).
      apply (in_map fst _ _ Iy). }
    apply Forall_app in Pl. destruct Pl as [P1 P2]. inversion P2 as [|? ? Px _]; subst.
    exists (map f l1), (arg_info o pc anc x'), s, (map f l2 ++ map f (followed false named)).
    split; [rewrite map_app, <- app_assoc; reflexivity|]. split.
    { apply Forall_forall. intros y Iy. apply in_map_iff in Iy. destruct Iy as [z [<- Iz]].
      exact (proj1 (Forall_forall _ _) P1 z Iz). }
    split; [exact Px|]. cbn [arg_info ai_node fst] in *. unfold printable in Nx.
    destruct (parse_kind _ _); [exfalso; apply Nx; discriminate|reflexivity].
Qed.

(** The rows of a table that was built. *)
Lemma tabled_rows anc items cells named t :
  cells_of items cells named -> all_of (fun x => sort_of x = SoArg /\ shaped x) items ->
  cells <> [] -> ~ (exists a, items = [a] /\ empty_arg a) ->
  cell_shapes (followed (some named) cells) ->
  tabled anc items = Some t ->
  lines_of (followed (some named) cells) (map (map pair) (rows _ t)) /\
  (exists c row rs, rows _ t = (c :: row) :: rs /\
    row_good o pc anc (cols _ t) c row /\ Forall (is_good o pc anc (cols _ t)) rs) /\
  (remaining _ t = [] <-> named = []).
Proof.
  intros [Ei [P Hd]] Sh Ne Nh Cs B.
  assert (So : Forall (fun x : ainfo * bool => sort_of (ai_node (fst x)) = SoArg) (infos anc items)).
  { unfold infos. rewrite with_seps_map. apply Forall_forall. intros y Iy. apply in_map_iff in Iy.
    destruct Iy as [x [<- Ix]]. cbn [fst arg_info ai_node]. apply (in_map fst) in Ix.
    rewrite with_seps_nodes in Ix. exact (proj1 (all_of_In _ _ _ Sh Ix)). }
  destruct (build_table_fair ainfo ai_node (cell_text pc) _ _ So B) as [[[Lr Ln] [Ro Pk]] [E Hr]].
  assert (E2 : map pair (List.concat (rows _ t)) ++ map (fun x : ainfo * bool => (ai_node (fst x), snd x)) (remaining _ t) =
    followed (some named) cells ++ followed false named).
  { replace (followed (some named) cells ++ followed false named) with (with_seps items)
      by (rewrite with_seps_followed, Ei, followed_app; destruct named; reflexivity).
    transitivity (map (fun x : ainfo * bool => (ai_node (fst x), snd x)) (infos anc items)).
    - rewrite <- E, map_app, map_map. reflexivity.
    - unfold infos. rewrite with_seps_map, map_map. cbn [fst snd arg_info ai_node].
      etransitivity; [|apply map_id]. apply map_ext. intros []; reflexivity. }
  assert (Un : Forall (fun x : expr * bool => arg_named (fst x) = false) (map pair (List.concat (rows _ t)))).
  { apply Forall_forall. intros y Iy. apply in_map_iff in Iy. destruct Iy as [c [<- Ic]].
    apply in_concat in Ic. destruct Ic as [row [Ir Ic]].
    exact (proj1 (proj1 (Forall_forall _ _) (proj1 (Forall_forall _ _) Pk row Ir) c Ic)). }
  destruct (cells_split (fun x : expr * bool => arg_named (fst x)) _ _ _ _ E2 Un) as [Ec Er].
  { apply Forall_forall. intros y Iy.
    apply (proj1 (Forall_forall _ _) (positional_unnamed cells P)).
    rewrite <- (followed_fst (some named) cells). apply (in_map fst _ _ Iy). }
  { destruct (remaining _ t); [exact I|exact Hr]. }
  { destruct named as [|x [|]]; [exact I| |]; destruct Hd as [? [? [? [? ->]]]]; reflexivity. }
  split; [|split].
  - split; [rewrite <- Ec, concat_map; reflexivity|]. split.
    + apply Forall_forall. intros y Iy. apply in_map_iff in Iy. destruct Iy as [row [<- Ir]].
      destruct (proj1 (Forall_forall _ _) Lr row Ir) as [c [r [-> F]]].
      exists (pair c), (map pair r). split; [reflexivity|]. apply Forall_forall. intros z Iz.
      apply in_map_iff in Iz. destruct Iz as [c' [<- Ic']]. exact (proj1 (Forall_forall _ _) F c' Ic').
    + destruct (rows _ t) as [|row rs]; [exact I|]. cbn [map]. apply Forall_forall. intros y Iy.
      apply in_map_iff in Iy. destruct Iy as [row' [<- Ir]].
      destruct (proj1 (Forall_forall _ _) Ln row' Ir) as [c [r [-> N]]].
      exists (pair c), (map pair r). split; [reflexivity|exact N].
  - assert (Cell : forall c, In c (List.concat (rows _ t)) -> forall first, cell_shape first (pair c) -> good_cell o pc anc first c).
    { intros c Ic first Shp. pose proof Ic as Ic'. apply in_concat in Ic'. destruct Ic' as [row [Ir Icr]].
      destruct (proj1 (Forall_forall _ _) (proj1 (Forall_forall _ _) Pk row Ir) c Icr) as [N K].
      assert (Ii : In (ce_arg _ c, ce_sep _ c) (infos anc items)).
      { rewrite <- E. apply in_or_app. left. apply in_map_iff. exists c. auto. }
      unfold infos in Ii. rewrite with_seps_map in Ii. apply in_map_iff in Ii.
      destruct Ii as [[x s] [Ex Ix]]. cbn [fst snd] in Ex. injection Ex as Ex Es.
      apply (in_map fst) in Ix. rewrite with_seps_nodes in Ix. cbn [fst] in Ix.
      destruct (all_of_In _ _ _ Sh Ix) as [Sx Shx]. unfold pair in Shp.
      rewrite <- Ex in N, K, Shp. cbn [arg_info ai_node] in N, K, Shp.
      destruct x; try discriminate Sx. destruct nm; [discriminate N|]. cbn [shaped] in Shx.
      exists n, v, sl. split; [split; [symmetry; exact Ex|exact K]|]. split; [tauto|exact Shp]. }
    assert (Ro' : forall row, In row (rows _ t) -> roomy_row ainfo (cols _ t) 0 row)
      by (intros row Ir; exact (proj1 (Forall_forall _ _) Ro row Ir)).
    assert (Se : forall row, In row (rows _ t) -> seps_ok (map pair row)).
    { intros row Ir. assert (X : Forall seps_ok (map (map pair) (rows _ t))).
      { apply seps_concat. rewrite <- concat_map, Ec. apply seps_followed. }
      apply (proj1 (Forall_forall _ _) X). apply in_map, Ir. }
    destruct (rows _ t) as [|row rs] eqn:Er0.
    { cbn [List.concat map] in Ec. destruct cells as [|x [|]]; [destruct (Ne eq_refl)| |]; discriminate Ec. }
    inversion Lr as [|? ? [c [r [-> Fr]]] Lr']; subst.
    assert (All : cell_shape true (pair c) /\ Forall (fun d => cell_shape false (pair d)) (r ++ List.concat rs)).
    { rewrite <- Ec in Cs. cbn [List.concat app map cell_shapes] in Cs. destruct Cs as [C1 C2].
      split; [exact C1|]. apply Forall_forall. intros d Id.
      exact (proj1 (Forall_forall _ _) C2 _ (in_map pair _ _ Id)). }
    destruct All as [C1 C2]. rewrite Forall_app in C2. destruct C2 as [C2 C3].
    exists c, r, rs. split; [reflexivity|]. split.
    + split; [exists true; apply Cell; [left; reflexivity|exact C1]|]. split.
      { destruct (ce_sep _ c) eqn:Sc; [left; reflexivity|right].
        cbn [List.concat app map] in Ec. assert (Y : followed (some named) cells = [(fst (pair c), false)]).
        { rewrite <- Ec. pose proof (seps_followed (some named) cells) as S. rewrite <- Ec in S.
          destruct (map pair (r ++ List.concat rs)) as [|z l]; [unfold pair; rewrite Sc; reflexivity|].
          destruct S as [S _]. cbn [pair snd] in S. congruence. }
        destruct cells as [|x [|x2 cells]]; [destruct (Ne eq_refl)| |discriminate Y].
        cbn [followed] in Y. injection Y as Yx Yn.
        destruct named; [|discriminate Yn]. intros Nv. apply Nh. exists x. split; [reflexivity|].
        pose proof (Forall_inv P) as [n [v [sl Px]]]. exists n, sl.
        cbn [pair fst] in Nv. rewrite <- Yx, Px in Nv. cbn [arg_value] in Nv. subst v. exact Px. }
      split.
      { apply Forall_forall. intros d Id. split.
        - apply Cell; [right; apply in_or_app; left; exact Id|exact (proj1 (Forall_forall _ _) C2 d Id)].
        - exact (proj1 (Forall_forall _ _) Fr d Id). }
      split; [apply (Ro' (c :: r)); left; reflexivity|]. apply (Se (c :: r)). left; reflexivity.
    + apply Forall_forall. intros row Ir. destruct (proj1 (Forall_forall _ _) Ln row Ir) as [d [q [-> Nd]]].
      destruct (proj1 (Forall_forall _ _) Lr' _ Ir) as [d' [q' [Eq Fq]]]. injection Eq as <- <-.
      assert (Sub : forall x, In x (d :: q) -> In x (List.concat rs))
        by (intros x Ix; apply in_concat; eexists; split; [exact Ir|exact Ix]).
      cbn [is_good]. split; [exists false; apply Cell|].
      { right. apply in_or_app. right. apply Sub. left; reflexivity. }
      { apply (proj1 (Forall_forall _ _) C3). apply Sub. left; reflexivity. }
      split.
      { unfold next, on_next_line in Nd. unfold valued, pair. cbn [fst snd] in *.
        destruct (ai_node (ce_arg _ d)); try destruct Nd. destruct v; [right; discriminate|].
        left. tauto. }
      split.
      { apply Forall_forall. intros x Ix. split.
        - apply Cell; [right; apply in_or_app; right; apply Sub; right; exact Ix|].
          apply (proj1 (Forall_forall _ _) C3), Sub. right; exact Ix.
        - exact (proj1 (Forall_forall _ _) Fq x Ix). }
      split; [apply (Ro' (d :: q)); right; exact Ir|]. apply (Se (d :: q)). right; exact Ir.
  - split; intros Z.
    + rewrite Z in Er. destruct named as [|x [|]]; [reflexivity|discriminate Er|discriminate Er].
    + subst named. cbn [followed] in Er. destruct (remaining _ t); [reflexivity|discriminate Er].
Qed.

(** * The table in the file *)

Lemma table_run X r Y body :
  exec (off_line_st false, []) (r ++ [OStep (SLine false)]) = (body ++ [PNewline], (off_line_st false, [])) ->
  exists pre held post,
    run (X ++ OStep (SWord (WTok tLPAREN)) :: OStep (SLine false) :: (r ++ [OStep (SLine false)]) ++ Y) =
      pre ++ PWord (WTok tLPAREN) :: held ++ PNewline :: body ++ PNewline :: post /\
    Forall remark held.
Proof.
  intros E. rewrite run_exec.
  change (X ++ OStep (SWord (WTok tLPAREN)) :: OStep (SLine false) :: (r ++ [OStep (SLine false)]) ++ Y)
    with (X ++ [OStep (SWord (WTok tLPAREN)); OStep (SLine false)] ++ (r ++ [OStep (SLine false)]) ++ Y).
  rewrite exec_app. destruct (exec (pstart, []) X) as [o1 [st h]].
  destruct (held_on_line h) as [a [Ha Ra]].
  assert (E2 : exec (st, h) [OStep (SWord (WTok tLPAREN)); OStep (SLine false)] =
    (((if p_space st then [PSpace] else []) ++ [PWord (WTok tLPAREN)]) ++ a ++ [PNewline], (off_line_st false, []))).
  { cbn [exec fst snd print_step]. unfold flush. cbn [fst snd].
    change {| p_line := true; p_space := false; p_empty := false |} with on_line_st. rewrite Ha.
    cbn [print_step on_line_st p_line p_empty andb]. reflexivity. }
  rewrite exec_app, E2, exec_app, E.
  destruct (exec (off_line_st false, []) Y) as [o2 s2]. cbn [fst snd].
  exists (o1 ++ if p_space st then [PSpace] else []), a, (o2 ++ fst (flush s2)).
  split; [|exact Ra]. rewrite <- !app_assoc. reflexivity.
Qed.

Definition p_args : pos := mkpos false false false true.
Lemma args_unskipped anc n rc items : agree anc p_args ->
  suppressed o anc (EArgs n KCall rc items) = false.
Proof.
  intros Ag. apply (not_asked_suppressed o anc p_args); [exact Ag|discriminate|].
  intros [Q _]. discriminate.
Qed.
Definition args_table (anc : list frame) (n : notes) (rc : bool) (items : list expr) : doc :=
  match tabled anc items with
  | Some t => write_table ainfo ai_node own_lead own_trail ai_doc (token_doc tCOMMA)
                (token_doc tLPAREN) (token_doc tRPAREN) t
  | None => verbatim (EArgs n KCall rc items)
  end.
Lemma args_doc anc fo n rc items : agree anc p_args -> fo_table fo = Some true -> items <> [] ->
  fmt o pc anc fo (EArgs n KCall rc items) =
  cat [ leading_comments (n_lead n); args_table anc n rc items; DNil; trailing_comments (n_trail n) ].
Proof.
  intros Ag T Ne. rewrite fmt_args, T. unfold node_rule. rewrite (args_unskipped _ _ _ _ Ag).
  cbn [notes_of]. unfold rule_args, args_table, tabled, infos. destruct items as [|x items]; [contradiction|].
  cbn [map]. reflexivity.
Qed.
Lemma args_loud anc fo n rc items t : agree anc p_args -> fo_table fo = Some true -> items <> [] ->
  tabled anc items = Some t -> will_break (remove_soft (fmt o pc anc fo (EArgs n KCall rc items))) = true.
Proof.
  intros Ag T Ne B. rewrite (args_doc _ _ _ _ _ Ag T Ne). unfold args_table. rewrite B.
  unfold write_table, group. cbn [cat remove_soft will_break]. rewrite orb_true_l, orb_true_r. reflexivity.
Qed.

Lemma rows_not_nil cs c row rs x :
  is_nil (DCat (writing_rows cs true ((c :: row) :: rs)) x) = false.
Proof.
  unfold writing_rows. cbn [write_rows write_cells cat is_nil]. unfold write_cell.
  destruct (cell_padding _ _). cbn [cat is_nil].
  rewrite !andb_false_r. reflexivity.
Qed.
Lemma table_lay m t c row rs os :
  rows _ t = (c :: row) :: rs ->
  lay m (write_table ainfo ai_node own_lead own_trail ai_doc (token_doc tCOMMA)
           (token_doc tLPAREN) (token_doc tRPAREN) t) os ->
  exists os1 os2 Y,
    glay Expanded (rowing (cols _ t) 0 (c :: row)) os1 /\
    glay Expanded (writing_rows (cols _ t) false rs) os2 /\
    os = OStep (SWord (WTok tLPAREN)) :: OStep (SLine false) :: ((os1 ++ os2) ++ [OStep (SLine false)]) ++ Y.
Proof.
  intros Er H. unfold write_table, group in H. cbn [lay] in H.
  destruct H as [l [y [A [H ->]]]]. destruct H as [b [y' [B [H ->]]]].
  apply lay_glay, token_lay in A. subst l.
  unfold soft_block_indent in B. rewrite Er in B.
  change (write_rows ainfo ai_node own_lead own_trail ai_doc (token_doc tCOMMA) (cols ainfo t) true ((c :: row) :: rs))
    with (writing_rows (cols ainfo t) true ((c :: row) :: rs)) in B.
  rewrite rows_not_nil in B. cbn [cat lay] in B.
  destruct B as [u [w [[l1 [d [E1 [D ->]]]] [[l2 [z [E2 [-> ->]]]] ->]]]]. subst l1 l2.
  destruct D as [rw [rm [R [M ->]]]].
  unfold writing_rows in R. cbn [write_rows] in R. destruct R as [n1 [r1 [En [R ->]]]].
  cbn [lay] in En. subst n1.
  destruct R as [os1 [r2 [R1 [R2 ->]]]]. destruct R2 as [os2 [r3 [R2 [R3 ->]]]]. cbn [lay cat] in R3. subst r3.
  exists os1, os2. 
  assert (X : exists Y0, rm ++ [OStep (SLine false)] = [OStep (SLine false)] ++ Y0).
  { unfold write_remaining in M. destruct (remaining _ t).
    - cbn [lay] in M. subst rm. exists []. reflexivity.
    - destruct M as [h [q [Eh [_ ->]]]]. cbn [lay] in Eh. subst h. eexists. cbn [app]. reflexivity. }
  destruct X as [Y0 X]. exists (Y0 ++ y').
  split; [apply lay_glay, R1|]. split; [apply lay_glay, R2|].
  cbn [app]. rewrite !app_nil_r. f_equal. f_equal. rewrite <- !app_assoc. f_equal. f_equal.
  change (OStep (SLine false) :: y') with ([OStep (SLine false)] ++ y').
  rewrite (app_assoc rm), X, <- app_assoc. reflexivity.
Qed.

Lemma in_file_told r p y os :
  root_shaped r -> in_file o r p y -> lay Expanded (root_doc o pc r) os ->
  exists anc fo m pre os' post, agree anc p /\ fits anc p fo y /\ suited o pc p anc fo y /\
    glay m (fmt o pc anc fo y) os' /\ os = pre ++ os' ++ post.
Proof.
  intros Sh I L.
  destruct (inall_lay _ _ (in_file_softly o pc r p y Sh I) _ _ L)
    as [d' [m' [pre [os' [post [S [L' ->]]]]]]].
  destruct S as [[anc [fo [A [F [Su ->]]]]]|[d0 [[anc [fo [A [F [Su ->]]]]] ->]]].
  - exists anc, fo, m', pre, os', post. repeat (split; [assumption|]).
    split; [apply lay_glay, L'|reflexivity].
  - exists anc, fo, Flat, pre, os', post. repeat (split; [assumption|]).
    split; [|reflexivity]. apply (glay_remove_soft _ m'), lay_glay, L'.
Qed.

Lemma visited_snoc p e p' x p'' y : visited o p e p' x -> ~ skip_asked o p' x -> part o p' x p'' y ->
  visited o p e p'' y.
Proof.
  induction 1 as [p e|p e p1 x1 p2 x2 S P V IH]; intros N Pt.
  - exact (V_below _ _ _ _ _ _ _ N Pt (V_here _ _ _)).
  - exact (V_below _ _ _ _ _ _ _ S P (IH N Pt)).
Qed.
Lemma args_in_file r p n f args :
  in_file o r p (ECall n f args) -> ~ skip_asked o p (ECall n f args) -> table_asked o p n f ->
  in_file o r p_args args.
Proof.
  intros [e [I V]] S T. exists e. split; [exact I|].
  apply (visited_snoc _ _ _ _ _ _ V S). apply P_args. split; auto.
Qed.

Definition all_printable (cells : list expr) : Prop := Forall (printable []) cells.

(** The arguments of a call laid out as a table: copied, or rows. *)
Lemma table_shown r out p n f n' rc items cells named :
  root_shaped r -> prints (root_doc o pc r) out -> stored (o_table o) ->
  in_file o r p (ECall n f (EArgs n' KCall rc items)) ->
  ~ skip_asked o p (ECall n f (EArgs n' KCall rc items)) -> table_asked o p n f ->
  cells_of items cells named -> cells <> [] ->
  (Exists (fun x => ~ printable [] x) cells /\
     copied_in (EArgs n' KCall rc items) out) \/
  (all_printable cells /\
   (~ (exists a, items = [a] /\ empty_arg a) -> cell_shapes (followed (some named) cells) ->
    exists rs, lines_of (followed (some named) cells) rs /\ table_in o rs out)).
Proof.
  intros Sh [os [L ->]] St In Sk Ta Ce Ne.
  pose proof (args_in_file _ _ _ _ _ In Sk Ta) as Ia.
  assert (Ni : items <> []) by (destruct Ce as [-> _]; destruct cells; [contradiction|discriminate]).
  assert (Shi : all_of (fun x => sort_of x = SoArg /\ shaped x) items)
    by exact (proj1 (in_file_shaped o r _ _ Sh Ia)).
  assert (Dec : {tabled [] items = None} + {tabled [] items <> None})
    by (destruct (tabled [] items); [right; discriminate|left; reflexivity]).
  assert (Told : forall anc fo, suited o pc p_args anc fo (EArgs n' KCall rc items) -> fo_table fo = Some true)
    by (intros anc fo [_ T]; exact (T eq_refl St)).
  assert (Same : forall anc, tabled anc items = None <-> tabled [] items = None).
  { intros anc. rewrite !(tabled_none _ _ _ _ Ce), !Exists_exists. split; intros [x [Ix N]]; exists x;
      (split; [exact Ix|]); intros P; apply N; exact (printable_like _ _ _ P). }
  destruct Dec as [D|D].
  - left. split; [exact (proj1 (tabled_none _ _ _ _ Ce) D)|]. apply in_split.
    destruct (in_file_told r p_args _ os Sh Ia L) as [anc [fo [m [pre [os' [post [A [F [Su [G ->]]]]]]]]]].
    rewrite (args_doc anc fo n' rc items A (Told _ _ Su) Ni) in G. unfold args_table in G.
    rewrite (proj2 (Same anc) D) in G. split_lay G. split_lay G.
    apply verbatim_word in A1. apply run_word; [discriminate|].
    apply in_or_app. right. apply in_or_app. left. apply in_or_app. right. apply in_or_app. left. exact A1.
  - right. split.
    { apply Forall_forall. intros x Ix Px. apply D. apply (proj2 (tabled_none [] _ _ _ Ce)).
      apply Exists_exists. exists x. split; [exact Ix|]. intros H. exact (H Px). }
    intros Nh Cs.
    assert (Some_t : forall anc, exists t, tabled anc items = Some t).
    { intros anc. destruct (tabled anc items) as [t|] eqn:E; [eauto|]. destruct (D (proj1 (Same anc) E)). }
    destruct (in_file_exact o pc r p_args (EArgs n' KCall rc items) os Sh) as
      [anc [fo [m [pre [os' [post [A [F [Su [G ->]]]]]]]]]]; [|exact Ia|exact L|].
    { intros d [anc [fo [A [F [Su ->]]]]]. destruct (Some_t anc) as [t E].
      exact (args_loud anc fo n' rc items t A (Told _ _ Su) Ni E). }
    rewrite (args_doc anc fo n' rc items A (Told _ _ Su) Ni) in G. unfold args_table in G.
    destruct (Some_t anc) as [t E]. rewrite E in G.
    destruct G as [l [g1 [_ [G ->]]]]. destruct G as [w [g2 [W [_ ->]]]].
    destruct (tabled_rows anc items cells named t Ce Shi Ne Nh Cs E) as [Li [[c [row [rs [Er [G1 G2]]]]] _]].
    destruct (table_lay m t c row rs w Er W) as [os1 [os2 [Y [L1 [L2 ->]]]]].
    destruct (rows_exec o pc Cp anc (cols _ t) Expanded rs c row false os1 os2 G1 G2 L1 L2) as [body [Ex Rs]].
    exists (map (map pair) (rows _ t)). split; [exact Li|].
    destruct (table_run (pre ++ l) (os1 ++ os2) (Y ++ g2 ++ post) body Ex) as [pre' [held [post' [Eo Rh]]]].
    exists (comma_at (cols _ t)), (point_at (cols _ t)), (left_at (cols _ t)), pre', held, body, post'.
    split; [|split; [exact Rh|rewrite Er; exact Rs]].
    rewrite <- Eo. f_equal. rewrite <- !app_assoc. cbn [app]. rewrite <- !app_assoc. reflexivity.
Qed.
End Grid.
