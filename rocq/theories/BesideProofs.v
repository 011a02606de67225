(** The comments among operands, arguments and parameters. *)
From Coq Require Import List Arith Bool NArith Lia.
From Verif Require Import Text TextFacts SettingsModel SyntaxKind ParseModel ParseSpec FmtTree FmtSpec
  CommentsModel CommentsSpec CommentsProofs AstModel AstReads AstProofs FrontProofs FactorySpec FactoryProofs FactoryTyped
  SourceSpec SourceProofs SourceCommentProofs AroundProofs PlaceSpec PlaceProofs PlaceSourceProofs BodySpec BodyProofs BesideSpec.
Import ListNotations.

(** * Nodes without a rule of their own *)

Definition special (k : kind) : bool :=
  one_of [R_FOR_STATEMENT; R_FUNCTION_DEFINITION; R_WHILE_STATEMENT; R_REPEAT_STATEMENT; R_IF_STATEMENT; R_ELSE_CLAUSE;
          R_PARENTHESIZED_EXPRESSION; R_ARGUMENT_NAME_CLAUSE; R_ARGUMENT] k.
Lemma plain_rule root k d : is_kind root k (d_enclosing d) = true -> special k = false ->
  place_comment root d = handle_hole root d.
Proof.
  intros K R. unfold place_comment.
  assert (N : forall k', special k' = true -> is_kind root k' (d_enclosing d) = false).
  { intros k' E. apply (other_kind root _ _ _ K). apply kind_eqb_neq. intros ->. congruence. }
  unfold handle_for, handle_function, handle_while, handle_repeat, handle_if, handle_else, handle_paren,
    handle_name_clause, handle_argument.
  rewrite !N by reflexivity. reflexivity.
Qed.

Section Beside.
Variables (src : text) (t : ts) (rf : bool) (s : syn).
Hypothesis AF : attached_facts src t rf s.
Hypothesis Co : complete (skel_syn s) = true.
Notation pl := (attached s rf).

(** [e] was read from the node at [q], of [m] tokens after [g]. *)
Definition sits (q : path) (g m : nat) (e : expr) : Prop :=
  exists c e0, reads pl q g c e0 /\ at_path s q = Some c /\ width c = m /\ (e = e0 \/ exists x, e = with_separator x e0).
Lemma sits_notes q g m e : sits q g m e ->
  n_lead (notes_of e) = map (comment_of g m) (placed_at pl Leading q) /\
  n_dang (notes_of e) = map (comment_of g m) (placed_at pl Dangling q) /\
  n_trail (notes_of e) = map (comment_of g m) (placed_at pl Trailing q).
Proof.
  intros (c & e0 & R & A & <- & E).
  assert (notes_of e = notes_of e0) as -> by (destruct E as [->|[x ->]]; [reflexivity|apply separator_notes]).
  rewrite (notes_read _ _ _ _ _ R). auto.
Qed.
Lemma hole_separator x e : hole (with_separator x e) = hole e.
Proof. destruct e; reflexivity. Qed.
Lemma sits_hole q g m e : sits q g m e -> argument_node s q && is_hole_at s q = hole e.
Proof.
  intros (c & e0 & R & A & _ & E).
  assert (hole e = hole e0) as -> by (destruct E as [->|[x ->]]; [reflexivity|apply hole_separator]).
  assert (Kk : forall k cs, c = Node k cs -> argument_node s q = kind_eqb k R_ARGUMENT).
  { intros k cs ->. unfold argument_node, is_kind, node_kind. rewrite A. reflexivity. }
  unfold is_hole_at. rewrite A.
  destruct R; rewrite (Kk _ _ eq_refl); cbn [hole]; rewrite ?andb_false_r; try reflexivity.
  - destruct cs; [contradiction|apply andb_false_r].
  - assert (k = R_ARGUMENT) as -> by (destruct k; cbn in *; congruence). reflexivity.
Qed.
Definition on_side (G : nat) (e : option expr) (q : option path) : Prop :=
  match e, q with
  | Some e, Some q => exists g m, sits q g m e /\ (G <= g \/ g + m <= G)
  | None, None => True
  | _, _ => False
  end.

Section Gap.
Variables (p : path) (g : nat) (k : kind) (cs : list syn) (d1 : list (path * syn)) (x : path * syn) (d2 : list (path * syn))
  (y0 : parts) (rest : list parts).
Hypothesis Rc : reach s p g (Node k cs).
Hypothesis L : is_list k = false.
Hypothesis K : kids p cs = d1 ++ x :: d2.
Hypothesis Tx : syn_tokens (snd x) = y0 :: rest.
Hypothesis W1 : 1 <= kwidth d1.
Variable G : nat.
Hypothesis EG : G = g + kwidth d1.
Hypothesis Cl : gap_clean src t G.
Definition next_node : option path := if is_node (snd x) then Some (fst x) else firstnode d2.
Notation here := (here p d1 x d2 y0).

Lemma gap_picks h q sel w g' m :
  (forall d, here d -> how_eqb (fst (goes s d)) h && path_eqb (snd (goes s d)) q = sel (d_own d)) ->
  w = (g' <? G) && (G <? g' + m) ->
  holds w (map (comment_of g' m) (placed_at pl h q))
    (map fst (filter (fun c => sel (snd c)) (gap_comments src t G))).
Proof.
  intros T Ew. rewrite EG in *. refine (gap_holds src t rf s AF p g k cs d1 x d2 h q sel y0 rest w g' m Rc L K Tx W1 _ Cl Ew).
  intros u Iu E1 E2 E3 E4. destruct (proj1 (Forall_forall _ _) (af_settled _ _ _ _ AF) u Iu) as [_ Au].
  assert (Hh : here (pt_comment u)) by (unfold BodyProofs.here; auto). specialize (T _ Hh). unfold goes in T.
  unfold add_comment in Au. destruct (match place_comment s (pt_comment u) with Some x => x | None => _ end) as [h1 q1].
  rewrite Au. exact T.
Qed.
Lemma gap_all h q g' m : (forall d, here d -> goes s d = (h, q)) -> (G <= g' \/ g' + m <= G) ->
  holds false (map (comment_of g' m) (placed_at pl h q)) (all_comments (gap_comments src t G)).
Proof.
  intros T O. unfold all_comments. rewrite <- (filter_all (gap_comments src t G)).
  refine (gap_picks h q (fun _ => true) _ g' m _ _).
  - intros d H. rewrite (T d H). cbn [fst snd]. rewrite path_eqb_refl. destruct h; reflexivity.
  - symmetry. apply andb_false_iff. destruct O; [left; apply Nat.ltb_ge|right; apply Nat.ltb_ge]; lia.
Qed.
Lemma beside_gap left right : (forall d, here d -> place_comment s d = None) ->
  on_side G left (lastnode d1) -> on_side G right next_node -> (left = None -> right = None -> False) ->
  shared left right (gap_comments src t G).
Proof.
  intros T Hl Hr No.
  assert (Go : forall d, here d -> goes s d = default_place d) by (intros d H; unfold goes; rewrite (T d H); reflexivity).
  assert (Of : forall g1 m1, G <= g1 \/ g1 + m1 <= G -> false = (g1 <? G) && (G <? g1 + m1)).
  { intros g1 m1 O. symmetry. apply andb_false_iff. destruct O; [left; apply Nat.ltb_ge|right; apply Nat.ltb_ge]; lia. }
  unfold shared. destruct left as [a|], right as [b|]; cbn [on_side] in Hl, Hr.
  - destruct (lastnode d1) as [qa|] eqn:Ea; [|contradiction]. destruct next_node as [qb|] eqn:Eb; [|contradiction].
    destruct Hl as (ga & ma & Sa & Oa), Hr as (gb & mb & Sb & Ob).
    destruct (sits_notes _ _ _ _ Sa) as (_ & _ & ->). destruct (sits_notes _ _ _ _ Sb) as (-> & _ & _).
    assert (De : forall d, here d -> default_place d = if d_own d then (Leading, qb) else (Trailing, qa)).
    { intros d (_ & H1 & H2 & _). unfold default_place. fold next_node in H2. rewrite H1, H2, Ea, Eb. reflexivity. }
    split.
    + refine (gap_picks Trailing qa negb _ ga ma _ (Of _ _ Oa)). intros d H. rewrite (Go d H), (De d H).
      destruct (d_own d); cbn [fst snd how_eqb andb negb]; [reflexivity|apply path_eqb_refl].
    + refine (gap_picks Leading qb (fun b => b) _ gb mb _ (Of _ _ Ob)). intros d H. rewrite (Go d H), (De d H).
      destruct (d_own d); cbn [fst snd how_eqb andb negb]; [apply path_eqb_refl|reflexivity].
  - destruct (lastnode d1) as [qa|] eqn:Ea; [|contradiction]. destruct next_node as [qb|] eqn:Eb; [contradiction|].
    destruct Hl as (ga & ma & Sa & Oa). destruct (sits_notes _ _ _ _ Sa) as (_ & _ & ->).
    apply gap_all; [|exact Oa]. intros d H. rewrite (Go d H). destruct H as (_ & H1 & H2 & _).
    unfold default_place. fold next_node in H2. rewrite H1, H2, Ea, Eb. destruct (d_own d); reflexivity.
  - destruct (lastnode d1) as [qa|] eqn:Ea; [contradiction|]. destruct next_node as [qb|] eqn:Eb; [|contradiction].
    destruct Hr as (gb & mb & Sb & Ob). destruct (sits_notes _ _ _ _ Sb) as (-> & _ & _).
    apply gap_all; [|exact Ob]. intros d H. rewrite (Go d H). destruct H as (_ & H1 & H2 & _).
    unfold default_place. fold next_node in H2. rewrite H1, H2, Ea, Eb. destruct (d_own d); reflexivity.
  - exact (No eq_refl eq_refl).
Qed.
(** In a node without a rule of its own. *)
Lemma plain_gap left right : at_path s p = Some (Node k cs) -> special k = false ->
  on_side G left (lastnode d1) -> on_side G right next_node -> (left = None -> right = None -> False) -> no_hole left ->
  shared left right (gap_comments src t G).
Proof.
  intros A Sp Hl Hr No Nh. apply beside_gap; auto. intros d (He & Hp & _ & _).
  rewrite (plain_rule s k d) by (rewrite ?He; auto; apply (node_is s _ _ _ A)).
  unfold handle_hole. rewrite Hp. destruct left as [a|], (lastnode d1) as [qa|]; cbn [on_side] in Hl; try contradiction; [|reflexivity].
  destruct Hl as (ga & ma & Sa & _). rewrite (sits_hole _ _ _ _ Sa), Nh. reflexivity.
Qed.
End Gap.

(** * Lists with commas *)

Lemma wide_cons e l : wide (e :: l) = List.length (etokens e) + wide l.
Proof. unfold wide. cbn [flat_map]. apply app_length. Qed.
Lemma wide_app a b : wide (a ++ b) = wide a + wide b.
Proof. unfold wide. rewrite flat_map_app. apply app_length. Qed.
Definition like (e e0 : expr) : Prop := e = e0 \/ exists x, e = with_separator x e0.
Lemma sep_split so q a e b : forall i g l, reads_sep pl so q i g l (a ++ e :: b) ->
  exists la x lb e0, l = la ++ x :: lb /\
    reads pl (i + List.length la :: q) (g + List.length (flat_map syn_tokens la)) x e0 /\ sort_of e0 = so /\ like e e0 /\
    List.length (flat_map syn_tokens la) = wide a + List.length a /\
    match last_of a with
    | None => la = []
    | Some p => exists la' px c p0, la = la' ++ [px; Tok c] /\ token_of c = tCOMMA /\
        reads pl (i + List.length la' :: q) (g + List.length (flat_map syn_tokens la')) px p0 /\ sort_of p0 = so /\ like p p0
    end /\
    match b with
    | [] => lb = []
    | y :: _ => exists c ly lb' y0, lb = Tok c :: ly :: lb' /\ token_of c = tCOMMA /\
        reads pl (i + List.length la + 2 :: q) (g + List.length (flat_map syn_tokens la) + width x + 1) ly y0 /\ sort_of y0 = so /\ like y y0
    end /\ Forall plain l.
Proof.
  induction a as [|e' a IH]; intros i g l R.
  - cbn [app] in R. inversion R as [|? ? ? ? x e0 R1 S1|? ? ? ? x e0 c lr es R1 S1 Tc Nr R2]; subst.
    + exists [], x, [], e. cbn [List.length flat_map app last_of rev hd_error wide]. rewrite !Nat.add_0_r.
      repeat (split; [try reflexivity; try assumption; left; reflexivity|]). repeat constructor. exact (reads_plain _ _ _ _ _ R1).
    + exists [], x, (Tok c :: lr), e0. cbn [List.length flat_map app last_of rev hd_error wide]. rewrite !Nat.add_0_r.
      split; [reflexivity|]. split; [exact R1|]. split; [reflexivity|]. split; [right; exists c; reflexivity|].
      split; [reflexivity|]. split; [reflexivity|].
      pose proof (reads_sep_nonempty _ _ _ _ _ _ _ R2 Nr) as Nb. destruct b as [|y b]; [contradiction|].
      assert (P2 : exists ly lb' y0, lr = ly :: lb' /\ reads pl (S (S i) :: q) (g + width x + 1) ly y0 /\ sort_of y0 = sort_of e0 /\ like y y0 /\ Forall plain lr).
      { assert (Pl : forall s q i g l es, reads_sep pl s q i g l es -> Forall plain l).
        { clear. induction 1; repeat constructor; eauto using reads_plain. }
        pose proof (Pl _ _ _ _ _ _ R2) as P2.
        inversion R2 as [|? ? ? ? ly y0 R3 S3|? ? ? ? ly y0 c' lr' es' R3 S3 Tc' Nr' R4]; subst.
        - exists ly, [], y. repeat (split; [first [reflexivity|assumption|left; reflexivity]|]). exact P2.
        - exists ly, (Tok c' :: lr'), y0. repeat (split; [first [reflexivity|assumption|right; eexists; reflexivity]|]). exact P2. }
      destruct P2 as (ly & lb' & y0 & -> & R3 & S3 & L3 & P3).
      split.
      * exists c, ly, lb', y0. rewrite Nat.add_comm. auto 10.
      * constructor; [exact (reads_plain _ _ _ _ _ R1)|]. constructor; [exact I|exact P3].
  - cbn [app] in R. inversion R as [|? ? ? ? x e0 R1 S1 E1 E2 E3 E4 E5|? ? ? ? x e0 c lr es R1 S1 Tc Nr R2]; subst.
    { destruct a; discriminate. }
    destruct (IH _ _ _ R2) as (la & y & lb & e1 & -> & R3 & S3 & L3 & W3 & Hl & Hr & P3).
    exists (x :: Tok c :: la), y, lb, e1. cbn [List.length flat_map app].
    change (syn_tokens (Tok c)) with [c]. cbn [app]. rewrite app_length. cbn [List.length].
    change (List.length (syn_tokens x)) with (width x).
    assert (i + S (S (List.length la)) = S (S i) + List.length la) as -> by lia.
    assert (g + (width x + S (List.length (flat_map syn_tokens la))) = g + width x + 1 + List.length (flat_map syn_tokens la)) as -> by lia.
    split; [reflexivity|]. split; [exact R3|]. split; [exact S3|]. split; [exact L3|].
    split; [rewrite wide_cons, separator_tokens, (reads_wide _ _ _ _ _ R1); lia|].
    split.
    + unfold last_of in *. cbn [rev]. destruct (rev a) as [|p ra] eqn:Er; cbn [app hd_error] in *.
      * subst la. exists [], x, c, e0. cbn [List.length flat_map]. rewrite !Nat.add_0_r.
        repeat (split; [first [reflexivity|assumption]|]). right. exists c. reflexivity.
      * destruct Hl as (la' & px & c' & p0 & -> & Tc' & Rp & Sp & Lp). exists (x :: Tok c :: la'), px, c', p0.
        cbn [app List.length flat_map]. change (syn_tokens (Tok c)) with [c]. cbn [app]. rewrite app_length. cbn [List.length].
        change (List.length (syn_tokens x)) with (width x).
        assert (i + S (S (List.length la')) = S (S i) + List.length la') as -> by lia.
        assert (g + (width x + S (List.length (flat_map syn_tokens la'))) = g + width x + 1 + List.length (flat_map syn_tokens la')) as -> by lia.
        auto 10.
    + split; [|constructor; [exact (reads_plain _ _ _ _ _ R1)|constructor; [exact I|exact P3]]].
      destruct b as [|y1 b]; [exact Hr|]. destruct Hr as (c' & ly & lb' & y0 & -> & Tc' & Rp & Sp & Lp).
      exists c', ly, lb', y0. auto 10.
Qed.
Lemma kids_bracketed p a lk l z : is_list lk = true -> Forall plain l ->
  kids p [Tok a; Node lk l; Tok z] = (0 :: p, Tok a) :: indexed (1 :: p) 0 l ++ [(2 :: p, Tok z)].
Proof.
  intros L P. unfold kids. cbn [kids_from]. rewrite (spread_list _ _ _ L). unfold kids. rewrite (kids_indexed _ _ P). reflexivity.
Qed.
Lemma whole_wide q g c e : reads pl q g c e -> hole e = false -> 1 <= width c.
Proof.
  intros R H. destruct (reads_solid _ _ _ _ _ R) as (_ & W1 & W2).
  destruct (sort_of e) eqn:So; try (apply W1, W2; congruence).
  inversion R; subst; cbn in So; try discriminate So; try discriminate H.
  all: match goal with R1 : reads _ (0 :: _) _ ?x ?e1, S1 : sort_of ?e1 = _ |- _ =>
    destruct (reads_solid _ _ _ _ _ R1) as (_ & W3 & W4);
    assert (1 <= width x) by (apply W3, W4; congruence) end.
  all: unfold width in *; cbn [syn_tokens flat_map]; rewrite ?app_length; lia.
Qed.
Lemma like_hole e e0 : like e e0 -> hole e = hole e0.
Proof. intros [->|[x ->]]; [reflexivity|apply hole_separator]. Qed.
Lemma like_sort e e0 : like e e0 -> sort_of e = sort_of e0.
Proof. intros [->|[x ->]]; [reflexivity|apply with_separator_sort]. Qed.
Lemma like_tokens e e0 : like e e0 -> etokens e = etokens e0.
Proof. intros [->|[x ->]]; [reflexivity|apply separator_tokens]. Qed.

Section Bracketed.
Variables (p : path) (g : nat) (k lk : kind) (x z : parts) (l : list syn) (so : sort) (a b : list expr) (e : expr).
Notation cs := [Tok x; Node lk l; Tok z].
Hypothesis A : at_path s p = Some (Node k cs).
Hypothesis Rc : reach s p g (Node k cs).
Hypothesis L : is_list k = false.
Hypothesis Ll : is_list lk = true.
Hypothesis Sp : special k = false.
Hypothesis R : reads_sep pl so (1 :: p) 0 (g + 1) l (a ++ e :: b).

Lemma item_at i y : nth_error l i = Some y -> at_path s (i :: 1 :: p) = Some y.
Proof.
  intros N. apply (at_child s (1 :: p) lk l i y); [|exact N]. exact (at_child s p k cs 1 _ A eq_refl).
Qed.
Lemma nth_at (la : list syn) y lb : nth_error (la ++ y :: lb) (List.length la) = Some y.
Proof. rewrite nth_error_app2, Nat.sub_diag by lia. reflexivity. Qed.
Lemma width_at (la : list syn) q i : kwidth ((0 :: p, Tok x) :: indexed q i la) = 1 + List.length (flat_map syn_tokens la).
Proof. rewrite kwidth_cons, indexed_width. reflexivity. Qed.
Lemma lastnode_tok d q y : lastnode (d ++ [(q, Tok y)]) = lastnode d.
Proof. rewrite lastnode_app. reflexivity. Qed.
Lemma lastnode_node d q y : is_node y = true -> lastnode (d ++ [(q, y)]) = Some q.
Proof. intros N. rewrite lastnode_app. cbn. rewrite N. reflexivity. Qed.
Lemma read_node q g' y e' : reads pl q g' y e' -> is_node y = true.
Proof. intros R1. destruct (reads_form pl _ _ _ _ R1) as (k1 & c1 & -> & _). reflexivity. Qed.

(** What is known about the place of an item. *)
Lemma items_split : exists la y lb, l = la ++ y :: lb /\
  kids p cs = ((0 :: p, Tok x) :: indexed (1 :: p) 0 la) ++ (List.length la :: 1 :: p, y) ::
              (indexed (1 :: p) (S (List.length la)) lb ++ [(2 :: p, Tok z)]) /\
  kwidth ((0 :: p, Tok x) :: indexed (1 :: p) 0 la) = 1 + wide a + List.length a /\
  sits (List.length la :: 1 :: p) (g + 1 + wide a + List.length a) (wide [e]) e /\ is_node y = true /\ width y = wide [e] /\
  (hole e = false -> 1 <= wide [e]) /\
  match last_of a with
  | None => lastnode ((0 :: p, Tok x) :: indexed (1 :: p) 0 la) = None /\ la = []
  | Some e1 => exists la' px c g1 m1, la = la' ++ [px; Tok c] /\ is_node px = true /\
      lastnode ((0 :: p, Tok x) :: indexed (1 :: p) 0 la) = Some (List.length la' :: 1 :: p) /\
      sits (List.length la' :: 1 :: p) g1 m1 e1 /\ g1 + m1 + 1 = g + 1 + wide a + List.length a /\ sort_of e1 = so
  end /\
  match b with
  | [] => lb = []
  | e1 :: _ => exists c ly lb' m1, lb = Tok c :: ly :: lb' /\ p_kind c = COMMA /\ is_node ly = true /\
      sits (S (S (List.length la)) :: 1 :: p) (g + 1 + wide (a ++ [e]) + List.length a + 1) m1 e1
  end.
Proof.
  destruct (sep_split _ _ _ _ _ _ _ _ R) as (la & y & lb & e0 & El & R0 & S0 & L0 & W0 & Hl & Hr & P0).
  assert (Wy : width y = wide [e]).
  { unfold wide. cbn [flat_map]. rewrite app_nil_r, (like_tokens _ _ L0). symmetry. exact (reads_wide _ _ _ _ _ R0). }
  exists la, y, lb. split; [exact El|]. split.
  { rewrite (kids_bracketed p x lk _ z Ll P0), El. rewrite indexed_app. cbn [indexed app]. rewrite <- app_assoc. reflexivity. }
  split; [rewrite width_at; lia|]. split.
  { exists y, e0. rewrite W0, Nat.add_assoc in R0. split; [exact R0|]. split; [apply item_at; rewrite El; apply nth_at|]. split; [exact Wy|exact L0]. }
  split; [exact (read_node _ _ _ _ R0)|]. split; [exact Wy|]. split.
  { intros H. rewrite <- Wy. apply (whole_wide _ _ _ _ R0). rewrite <- (like_hole _ _ L0). exact H. }
  split.
  - destruct (last_of a) as [e1|].
    + destruct Hl as (la' & px & c & p0 & -> & Tc & Rp & Sp0 & Lp). cbn [Nat.add] in Rp.
      exists la', px, c, (g + 1 + List.length (flat_map syn_tokens la')), (width px).
      pose proof (read_node _ _ _ _ Rp) as Np.
      split; [reflexivity|]. split; [exact Np|]. split; [|split; [|split]].
      * rewrite indexed_app. cbn [indexed]. rewrite app_comm_cons.
        change (?u ++ [?v; ?w]) with (u ++ [v] ++ [w]). rewrite app_assoc, lastnode_tok, lastnode_node by exact Np. reflexivity.
      * exists px, p0. split; [exact Rp|]. split; [|split; [reflexivity|exact Lp]]. apply item_at. rewrite El, <- app_assoc. apply nth_at.
      * rewrite flat_map_app, app_length in W0. cbn [flat_map] in W0. rewrite !app_length in W0. cbn in W0. unfold width. lia.
      * rewrite (like_sort _ _ Lp). exact Sp0.
    + subst la. split; reflexivity.
  - destruct b as [|e1 b']; [exact Hr|]. destruct Hr as (c & ly & lb' & y0 & -> & Tc & Ry & Sy & Ly).
    exists c, ly, lb', (width ly). split; [reflexivity|]. split; [exact (tok_kind _ _ _ Tc)|]. split; [exact (read_node _ _ _ _ Ry)|].
    exists ly, y0. rewrite W0 in Ry. cbn [Nat.add] in Ry.
    assert (E1 : g + 1 + wide (a ++ [e]) + List.length a + 1 = g + 1 + (wide a + List.length a) + width y + 1)
      by (rewrite wide_app; lia).
    rewrite E1. assert (List.length la + 2 = S (S (List.length la))) as E2 by lia. rewrite E2 in Ry.
    split; [exact Ry|]. split; [|split; [reflexivity|exact Ly]].
    apply item_at. rewrite El. change (la ++ y :: Tok c :: ly :: lb') with (la ++ [y; Tok c] ++ ly :: lb'). rewrite app_assoc.
    replace (S (S (List.length la))) with (List.length (la ++ [y; Tok c])) by (rewrite app_length; cbn; lia). apply nth_at.
Qed.
Lemma some_token y : 1 <= width y -> exists y0 rest, syn_tokens y = y0 :: rest.
Proof. unfold width. destruct (syn_tokens y) as [|y0 rest]; [cbn; lia|eauto]. Qed.

Lemma before_item : hole e = false -> no_hole (last_of a) -> gap_clean src t (g + 1 + wide a + List.length a) ->
  shared (last_of a) (Some e) (gap_comments src t (g + 1 + wide a + List.length a)).
Proof.
  intros He Nh Cl. destruct items_split as (la & y & lb & El & K & Wd & Sy & Ny & Wy & We & Hl & _).
  destruct (some_token y) as (y0 & rest & Ty); [rewrite Wy; auto|].
  refine (plain_gap p g k _ _ _ _ y0 rest Rc L K Ty _ _ _ Cl _ _ A Sp _ _ _ Nh).
  - rewrite Wd. lia.
  - rewrite Wd. lia.
  - destruct (last_of a) as [e1|].
    + destruct Hl as (la' & px & c & g1 & m1 & -> & Np & -> & S1 & E1 & _). exists g1, m1. split; [exact S1|]. right. lia.
    + destruct Hl as [-> _]. exact I.
  - unfold next_node. cbn [snd fst]. rewrite Ny. exists (g + 1 + wide a + List.length a), (wide [e]). split; [exact Sy|]. left. lia.
  - discriminate.
Qed.
(** The gap behind an item: in front of the comma or the closing bracket. *)
Lemma after_split : exists la y lb d2 c w, l = la ++ y :: lb /\
  kids p cs = (((0 :: p, Tok x) :: indexed (1 :: p) 0 la) ++ [(List.length la :: 1 :: p, y)]) ++ w :: d2 /\ snd w = Tok c /\
  (p_kind c = COMMA \/ c = z) /\
  kwidth (((0 :: p, Tok x) :: indexed (1 :: p) 0 la) ++ [(List.length la :: 1 :: p, y)]) = 1 + wide (a ++ [e]) + List.length a /\
  sits (List.length la :: 1 :: p) (g + 1 + wide a + List.length a) (wide [e]) e /\ is_node y = true /\
  match last_of a with
  | None => la = []
  | Some e1 => exists la' px c g1 m1, la = la' ++ [px; Tok c] /\ is_node px = true /\
      sits (List.length la' :: 1 :: p) g1 m1 e1 /\ g1 + m1 + 1 = g + 1 + wide a + List.length a /\ sort_of e1 = so
  end /\
  match b with
  | [] => firstnode d2 = None
  | e1 :: _ => exists q m1, firstnode d2 = Some q /\ sits q (g + 1 + wide (a ++ [e]) + List.length a + 1) m1 e1
  end.
Proof.
  destruct items_split as (la & y & lb & El & K & Wd & Sy & Ny & Wy & We & Hl & Hr).
  assert (Wn : kwidth (((0 :: p, Tok x) :: indexed (1 :: p) 0 la) ++ [(List.length la :: 1 :: p, y)]) = 1 + wide (a ++ [e]) + List.length a).
  { rewrite kwidth_app, Wd, wide_app, kwidth_cons. cbn [snd]. rewrite Wy. cbn. lia. }
  assert (Hl' : match last_of a with
  | None => la = []
  | Some e1 => exists la' px c g1 m1, la = la' ++ [px; Tok c] /\ is_node px = true /\
      sits (List.length la' :: 1 :: p) g1 m1 e1 /\ g1 + m1 + 1 = g + 1 + wide a + List.length a /\ sort_of e1 = so
  end).
  { destruct (last_of a); [|exact (proj2 Hl)]. destruct Hl as (la' & px & c & g1 & m1 & H1 & H2 & _ & H3). exists la', px, c, g1, m1. auto. }
  destruct b as [|e1 b'].
  - subst lb. exists la, y, [], [], z, (2 :: p, Tok z). rewrite <- app_assoc. cbn [app indexed] in *.
    repeat (split; [first [reflexivity|assumption|right; reflexivity]|]). reflexivity.
  - destruct Hr as (c & ly & lb' & m1 & -> & Tc & Nl & Sl).
    exists la, y, (Tok c :: ly :: lb'), (indexed (1 :: p) (S (S (List.length la))) (ly :: lb') ++ [(2 :: p, Tok z)]), c, (S (List.length la) :: 1 :: p, Tok c).
    rewrite <- app_assoc. cbn [app indexed] in *.
    repeat (split; [first [reflexivity|assumption|left; assumption]|]).
    exists (S (S (List.length la)) :: 1 :: p), m1. cbn [firstnode]. rewrite Nl. auto.
Qed.
Lemma after_item : hole e = false -> gap_clean src t (g + 1 + wide (a ++ [e]) + List.length a) ->
  shared (Some e) (hd_error b) (gap_comments src t (g + 1 + wide (a ++ [e]) + List.length a)).
Proof.
  intros He Cl. destruct after_split as (la & y & lb & d2 & c & w & El & K & Ew & _ & Wd & Sy & Ny & _ & Hr).
  assert (Tw : syn_tokens (snd w) = [c]) by (rewrite Ew; reflexivity).
  refine (plain_gap p g k _ _ _ _ c [] Rc L K Tw _ _ _ Cl (Some e) (hd_error b) A Sp _ _ _ He).
  - rewrite Wd. lia.
  - rewrite Wd. lia.
  - rewrite lastnode_node by exact Ny. exists (g + 1 + wide a + List.length a), (wide [e]). split; [exact Sy|]. right. rewrite wide_app. lia.
  - unfold next_node. destruct w as [wq wt]. cbn [snd] in Ew |- *. rewrite Ew. cbn [is_node]. destruct b as [|e1 b']; cbn [hd_error]; [rewrite Hr; exact I|].
    destruct Hr as (q & m1 & -> & S1). exists (g + 1 + wide (a ++ [e]) + List.length a + 1), m1. split; [exact S1|]. left. lia.
  - discriminate.
Qed.

(** * Arguments that are left out *)

Hypothesis Fa : so = SoArg.
Lemma sits_argument q g1 m1 e1 : sits q g1 m1 e1 -> sort_of e1 = SoArg -> argument_node s q = true.
Proof.
  intros (c & e0 & R1 & A1 & _ & L1) S1. rewrite (like_sort _ _ L1) in S1.
  destruct (reads_form pl _ _ _ _ R1) as (k1 & c1 & -> & _). unfold argument_node, is_kind, node_kind. rewrite A1.
  apply kind_eqb_eq.
  inversion R1; subst; cbn in S1; try discriminate S1; match goal with H : form_of k1 = FoArg |- _ => revert H end;
    clear; destruct k1; cbn; congruence.
Qed.
Lemma prev_tokens (la : list syn) c y lb : forall j f, prev_index (List.length (la ++ [Tok c])) (la ++ Tok c :: y :: lb) j f = prev_index (List.length la) (la ++ Tok c :: y :: lb) j f.
Proof.
  induction la as [|[k1 c1|x1] la IH]; intros j f; cbn [app List.length prev_index]; [reflexivity| |]; rewrite IH; reflexivity.
Qed.
Lemma prev_node (la : list syn) k1 c1 r : forall j f, prev_index (S (List.length la)) (la ++ Node k1 c1 :: r) j f = Some (j + List.length la).
Proof.
  induction la as [|[k2 c2|x2] la IH]; intros j f; cbn [app List.length prev_index].
  - rewrite Nat.add_0_r. destruct r; reflexivity.
  - cbn [prev_index] in IH. rewrite IH. f_equal. lia.
  - cbn [prev_index] in IH. rewrite IH. f_equal. lia.
Qed.
Lemma in_hole : hole e = true -> one_of closers (p_kind z) = true -> gap_clean src t (g + 1 + wide a + List.length a) ->
  holds false (hole_notes a e) (all_comments (gap_comments src t (g + 1 + wide a + List.length a))).
Proof.
  intros He Cz Cl. destruct after_split as (la & y & lb & d2 & c & w & El & K & Ew & Tc & Wd & Sy & Ny & Hl & _).
  assert (W0 : wide [e] = 0) by (destruct e as [| | | | | | | | | | | | | | | | | |? [] []|]; try discriminate He; reflexivity).
  assert (Wa : wide (a ++ [e]) = wide a) by (rewrite wide_app; lia). rewrite Wa in Wd.
  assert (Tw : syn_tokens (snd w) = [c]) by (rewrite Ew; reflexivity).
  assert (Cc : closes_hole (Some (p_kind c)) = true).
  { unfold closes_hole, is_next. destruct Tc as [->| ->]; [reflexivity|]. revert Cz. cbn. destruct (p_kind z); cbn; congruence. }
  assert (Go : forall d, here p (((0 :: p, Tok x) :: indexed (1 :: p) 0 la) ++ [(List.length la :: 1 :: p, y)]) w d2 c d ->
    goes s d = match whole_argument s (prev_sibling s (List.length la :: 1 :: p)) with
               | Some q => (Trailing, q) | None => (Leading, List.length la :: 1 :: p) end).
  { intros d (H1 & H2 & _ & H4). unfold goes. rewrite (plain_rule s k d) by (rewrite ?H1; auto; apply (node_is s _ _ _ A)).
    unfold handle_hole. rewrite H2, lastnode_node, H4, Cc, (sits_hole _ _ _ _ Sy), He by exact Ny.
    destruct (whole_argument _ _); reflexivity. }
  assert (Al : at_path s (1 :: p) = Some (Node lk l)) by exact (at_child s p k cs 1 _ A eq_refl).
  assert (Fin : forall h q g1 m1, match whole_argument s (prev_sibling s (List.length la :: 1 :: p)) with
               | Some q => (Trailing, q) | None => (Leading, List.length la :: 1 :: p) end = (h, q) ->
     g + 1 + wide a + List.length a <= g1 \/ g1 + m1 <= g + 1 + wide a + List.length a ->
     holds false (map (comment_of g1 m1) (placed_at pl h q)) (all_comments (gap_comments src t (g + 1 + wide a + List.length a)))).
  { intros h q g1 m1 E O. refine (gap_all p g k _ _ _ _ c [] Rc L K Tw _ _ _ Cl h q g1 m1 _ O).
    - rewrite Wd. lia.
    - rewrite Wd. lia.
    - intros d H. rewrite (Go d H). exact E. }
  unfold hole_notes. unfold prev_sibling in Fin. rewrite Al, El in Fin. destruct (last_of a) as [e1|].
  - destruct Hl as (la' & px & c' & g1 & m1 & Ela & Np & S1 & E1 & So1). rewrite Ela in Fin, Sy. rewrite <- !app_assoc in Fin. cbn [app] in Fin.
    assert (Pv : prev_index (List.length (la' ++ [px; Tok c'])) (la' ++ px :: Tok c' :: y :: lb) 0 None = Some (List.length la')).
    { change (la' ++ [px; Tok c']) with (la' ++ [px] ++ [Tok c']). change (la' ++ px :: Tok c' :: y :: lb) with (la' ++ [px] ++ Tok c' :: y :: lb).
      rewrite !(app_assoc la'), prev_tokens. destruct px as [k1 c1|]; [|discriminate Np]. rewrite app_length, Nat.add_1_r, <- app_assoc.
      cbn [app]. rewrite prev_node. reflexivity. }
    rewrite Pv in Fin. unfold whole_argument in Fin.
    rewrite Fa in So1. pose proof (sits_argument _ _ _ _ S1 So1) as Ar. pose proof (sits_hole _ _ _ _ S1) as Ho. rewrite Ar in Fin, Ho.
    cbn [andb] in Fin, Ho. rewrite Ho in Fin. destruct (hole e1); cbn [negb] in Fin.
    + destruct (sits_notes _ _ _ _ Sy) as (-> & _ & _). apply (Fin _ _ _ _ eq_refl). right. lia.
    + destruct (sits_notes _ _ _ _ S1) as (_ & _ & ->). apply (Fin _ _ _ _ eq_refl). right. lia.
  - subst la. cbn [List.length prev_index app whole_argument] in Fin. destruct (sits_notes _ _ _ _ Sy) as (-> & _ & _).
    apply (Fin _ _ _ _ eq_refl). right. lia.
Qed.
Lemma argument_begins q g1 m1 e1 c : sits q g1 m1 e1 -> sort_of e1 = SoArg -> hole e1 = false -> at_path s q = Some c -> begins_well c.
Proof.
  intros (c' & e0 & R1 & A1 & _ & L1) S1 H1 Ac. rewrite A1 in Ac. injection Ac as <-.
  rewrite (like_sort _ _ L1) in S1. rewrite (like_hole _ _ L1) in H1.
  assert (First : forall k1 y r, c' = Node k1 (y :: r) -> begins_well y -> begins_well c').
  { intros k1 y r -> (y0 & rest & E & B). exists y0. eexists. cbn [syn_tokens flat_map]. rewrite E. split; [reflexivity|exact B]. }
  assert (Ex : forall q' g' y e', reads pl q' g' y e' -> at_path s q' = Some y -> sort_of e' = SoExpr -> begins_well y).
  { intros q' g' y e' Ry Ay Sy. destruct (reads_expression pl _ _ _ _ Ry Sy) as (kx & cx & -> & Ex).
    apply complete_begins; [exact (at_complete s _ Co _ Ay)|]. apply expression_kind. exact Ex. }
  assert (Nm : forall q' g' y e', reads pl q' g' y e' -> at_path s q' = Some y -> sort_of e' = SoName -> begins_well y).
  { intros q' g' y e' Ry Ay Sy. inversion Ry; subst; try discriminate Sy.
    match goal with Rn : reads _ (0 :: _) _ ?n _, Sn : sort_of _ = SoExpr |- begins_well (Node ?kn (_ :: ?rn)) =>
      assert (Bn : begins_well n) by exact (Ex _ _ _ _ Rn (at_child s _ _ _ 0 _ Ay eq_refl) Sn) end.
    destruct Bn as (y0 & rest & E & B). exists y0. eexists. cbn [syn_tokens flat_map]. rewrite E. split; [reflexivity|exact B]. }
  inversion R1; subst; cbn in S1, H1; try discriminate S1; try discriminate H1.
  all: eapply First; [reflexivity|].
  all: match goal with
    | R2 : reads _ (0 :: _) _ _ ?e2, S2 : sort_of ?e2 = SoName |- _ => exact (Nm _ _ _ _ R2 (at_child s _ _ _ 0 _ A1 eq_refl) S2)
    | R2 : reads _ (0 :: _) _ _ ?e2, S2 : sort_of ?e2 = SoExpr |- _ => exact (Ex _ _ _ _ R2 (at_child s _ _ _ 0 _ A1 eq_refl) S2)
    end.
Qed.
Lemma behind_hole a' h : a = a' ++ [h] -> hole h = true -> hole e = false -> sort_of e = SoArg ->
  gap_clean src t (g + 1 + wide a + List.length a) ->
  holds false (n_lead (notes_of e)) (all_comments (gap_comments src t (g + 1 + wide a + List.length a))).
Proof.
  intros Ea Hh He Se Cl. destruct items_split as (la & y & lb & El & K & Wd & Sy & Ny & Wy & We & Hl & _).
  assert (Ay : at_path s (List.length la :: 1 :: p) = Some y) by (apply item_at; rewrite El; apply nth_at).
  destruct (argument_begins _ _ _ _ _ Sy Se He Ay) as (y0 & rest & Ty & By).
  assert (El' : last_of a = Some h) by (rewrite Ea; unfold last_of; rewrite rev_app_distr; reflexivity). rewrite El' in Hl.
  destruct Hl as (la' & px & c & g1 & m1 & Ela & Np & Ll' & S1 & E1 & _).
  destruct (sits_notes _ _ _ _ Sy) as (-> & _ & _).
  refine (gap_all p g k _ _ _ _ y0 rest Rc L K Ty _ _ _ Cl _ _ _ _ _ _).
  - rewrite Wd. lia.
  - rewrite Wd. lia.
  - intros d (H1 & H2 & H3 & H4). unfold goes. rewrite (plain_rule s k d) by (rewrite ?H1; auto; apply (node_is s _ _ _ A)).
    cbn [snd fst] in H3. rewrite Ny in H3.
    assert (Cn : closes_hole (Some (p_kind y0)) = false) by (unfold closes_hole, is_next; revert By; clear; destruct (p_kind y0); cbn; congruence).
    unfold handle_hole. rewrite H2, Ll', H4, Cn, (sits_hole _ _ _ _ S1), Hh, H3. unfold whole_argument.
    pose proof (sits_hole _ _ _ _ Sy) as Ho. rewrite (sits_argument _ _ _ _ Sy Se) in *. cbn [andb] in *. rewrite Ho, He. reflexivity.
  - left. lia.
Qed.
End Bracketed.

(** * Other nodes *)

Lemma expr_whole e : sort_of e <> SoArg -> hole e = false.
Proof. destruct e; cbn; congruence. Qed.
Lemma sits_child i p g c e k cs : at_path s p = Some (Node k cs) -> nth_error cs i = Some c ->
  reads pl (i :: p) g c e -> sort_of e <> SoArg ->
  plain c /\ is_node c = true /\ sits (i :: p) g (width c) e /\ hole e = false /\ wide [e] = width c /\
  exists y rest, syn_tokens c = y :: rest.
Proof.
  intros A N R So. pose proof (expr_whole e So) as H. split; [exact (reads_plain _ _ _ _ _ R)|].
  split; [exact (read_node _ _ _ _ R)|]. split.
  { exists c, e. split; [exact R|]. split; [exact (at_child s p k cs i c A N)|]. split; [reflexivity|left; reflexivity]. }
  split; [exact H|]. split; [exact (wide_one _ _ _ _ _ R)|].
  apply some_token. exact (whole_wide _ _ _ _ R H).
Qed.
Ltac span := unfold kwidth, ktoks; cbn [flat_map syn_tokens snd List.length app];
  rewrite ?app_length; cbn [List.length]; rewrite ?app_length; unfold width in *; cbn [List.length]; lia.

(** The first child is a token, the second one a node. *)
Lemma operand p g k op c e : at_path s p = Some (Node k [Tok op; c]) -> reach s p g (Node k [Tok op; c]) -> is_list k = false ->
  special k = false -> reads pl (1 :: p) (g + 1) c e -> sort_of e = SoExpr -> gap_clean src t (g + 1) ->
  shared None (Some e) (gap_comments src t (g + 1)).
Proof.
  intros A Rc L Sp R So Cl.
  destruct (sits_child 1 p _ c e k _ A eq_refl R ltac:(congruence)) as (P & N & St & H & W & y0 & rest & T).
  assert (K : kids p [Tok op; c] = [(0 :: p, Tok op)] ++ (1 :: p, c) :: []).
  { unfold kids. cbn [kids_from]. rewrite (spread_plain _ _ P). reflexivity. }
  refine (plain_gap p g k _ _ _ _ y0 rest Rc L K T _ _ _ Cl None (Some e) A Sp _ _ _ I).
  - span.
  - span.
  - exact I.
  - unfold next_node. cbn [snd fst]. rewrite N. eexists _, _. split; [exact St|]. left. lia.
  - discriminate.
Qed.
(** Nodes on both sides of a token. *)
Lemma operands p g k a op c x y d : at_path s p = Some (Node k [a; Tok op; c]) -> reach s p g (Node k [a; Tok op; c]) ->
  is_list k = false -> special k = false -> reads pl (0 :: p) g a x -> sort_of x = SoExpr ->
  reads pl (2 :: p) (g + width a + 1) c y -> sort_of y = SoExpr -> In d [wide [x]; wide [x] + 1] -> gap_clean src t (g + d) ->
  shared (Some x) (Some y) (gap_comments src t (g + d)).
Proof.
  intros A Rc L Sp R So R' So' D Cl.
  destruct (sits_child 0 p _ a x k _ A eq_refl R ltac:(congruence)) as (P & N & St & H & W & y0 & rest & T).
  destruct (sits_child 2 p _ c y k _ A eq_refl R' ltac:(congruence)) as (P' & N' & St' & H' & W' & y1 & rest' & T').
  assert (K : kids p [a; Tok op; c] = [(0 :: p, a); (1 :: p, Tok op); (2 :: p, c)]).
  { unfold kids. cbn [kids_from]. rewrite (spread_plain _ _ P), (spread_plain _ _ P'). reflexivity. }
  assert (Wa : 1 <= width a) by (unfold width; rewrite T; cbn; lia).
  rewrite W in D. cbn [In] in D. destruct D as [<-|[<-|[]]].
  - refine (plain_gap p g k _ [(0 :: p, a)] _ _ op [] Rc L K eq_refl _ _ _ Cl (Some x) (Some y) A Sp _ _ _ H).
    + span.
    + span.
    + cbn [lastnode]. rewrite N. eexists _, _. split; [exact St|]. right. lia.
    + unfold next_node. cbn [snd fst is_node firstnode]. rewrite N'. eexists _, _. split; [exact St'|]. left. lia.
    + discriminate.
  - refine (plain_gap p g k _ [(0 :: p, a); (1 :: p, Tok op)] _ _ y1 rest' Rc L K T' _ _ _ Cl (Some x) (Some y) A Sp _ _ _ H).
    + span.
    + span.
    + cbn [lastnode]. cbn [is_node]. rewrite N. eexists _, _. split; [exact St|]. right. lia.
    + unfold next_node. cbn [snd fst]. rewrite N'. eexists _, _. split; [exact St'|]. left. lia.
    + discriminate.
Qed.
(** A node right after another one. *)
Lemma pair_kids p a c : plain a -> plain c -> kids p [a; c] = [(0 :: p, a)] ++ (1 :: p, c) :: [].
Proof. intros P P'. unfold kids. cbn [kids_from]. rewrite (spread_plain _ _ P), (spread_plain _ _ P'). reflexivity. Qed.
Lemma partners p g k a c x y : at_path s p = Some (Node k [a; c]) -> reach s p g (Node k [a; c]) ->
  is_list k = false -> special k = false -> reads pl (0 :: p) g a x -> sort_of x <> SoArg ->
  reads pl (1 :: p) (g + width a) c y -> sort_of y <> SoArg -> gap_clean src t (g + wide [x]) ->
  shared (Some x) (Some y) (gap_comments src t (g + wide [x])).
Proof.
  intros A Rc L Sp R So R' So' Cl.
  destruct (sits_child 0 p _ a x k _ A eq_refl R So) as (P & N & St & H & W & y0 & rest & T).
  destruct (sits_child 1 p _ c y k _ A eq_refl R' So') as (P' & N' & St' & H' & W' & y1 & rest' & T').
  assert (Wa : 1 <= width a) by (unfold width; rewrite T; cbn; lia). rewrite W in Cl |- *.
  refine (plain_gap p g k _ _ _ _ y1 rest' Rc L (pair_kids p a c P P') T' _ _ _ Cl (Some x) (Some y) A Sp _ _ _ H).
  - span.
  - span.
  - cbn [lastnode]. rewrite N. eexists _, _. split; [exact St|]. right. lia.
  - unfold next_node. cbn [snd fst]. rewrite N'. eexists _, _. split; [exact St'|]. left. lia.
  - discriminate.
Qed.
(** Between the name of an argument and its value. *)
Lemma named p g a c x y : at_path s p = Some (Node R_ARGUMENT [a; c]) -> reach s p g (Node R_ARGUMENT [a; c]) ->
  reads pl (0 :: p) g a x -> sort_of x = SoName ->
  reads pl (1 :: p) (g + width a) c y -> sort_of y = SoExpr -> gap_clean src t (g + wide [x]) ->
  holds false (n_lead (notes_of x)) (all_comments (gap_comments src t (g + wide [x]))).
Proof.
  intros A Rc R So R' So' Cl.
  destruct (sits_child 0 p _ a x _ _ A eq_refl R ltac:(congruence)) as (P & N & St & H & W & y0 & rest & T).
  destruct (sits_child 1 p _ c y _ _ A eq_refl R' ltac:(congruence)) as (P' & N' & St' & H' & W' & y1 & rest' & T').
  assert (Wa : 1 <= width a) by (unfold width; rewrite T; cbn; lia). rewrite W in Cl |- *.
  destruct (sits_notes _ _ _ _ St) as (-> & _ & _).
  refine (gap_all p g _ _ _ _ _ y1 rest' Rc eq_refl (pair_kids p a c P P') T' _ _ _ Cl _ _ _ _ _ _).
  - span.
  - span.
  - intros d (H1 & H2 & _ & _). cbn [lastnode] in H2. rewrite N in H2.
    pose proof (node_is s _ _ _ A) as Kn.
    assert (Ks : forall k', kind_eqb R_ARGUMENT k' = false -> is_kind s k' p = false) by (intros k' E; exact (other_kind s _ _ _ Kn E)).
    assert (Fi : field_of_kind s R_ARGUMENT_NAME_CLAUSE 0 p = Some (0 :: p)).
    { unfold field_of_kind, is_kind, node_kind. rewrite (at_child s p _ _ 0 _ A eq_refl).
      inversion R; subst; try discriminate So. match goal with F : form_of ?k' = FoName |- _ => destruct k'; cbn in F; try discriminate F end.
      reflexivity. }
    unfold goes, place_comment, handle_for, handle_function, handle_while, handle_repeat, handle_if, handle_else, handle_paren,
      handle_name_clause, handle_argument. rewrite H1, !Ks, Kn, Fi, H2 by reflexivity. cbn [or_else is_path]. rewrite path_eqb_refl. reflexivity.
  - right. lia.
Qed.
(** Between the name of an argument and the equal sign. *)
Lemma clause p g a q x : at_path s p = Some (Node R_ARGUMENT_NAME_CLAUSE [a; Tok q]) ->
  reach s p g (Node R_ARGUMENT_NAME_CLAUSE [a; Tok q]) ->
  reads pl (0 :: p) g a x -> sort_of x = SoExpr -> gap_clean src t (g + wide [x]) ->
  holds false (n_lead (notes_of x)) (all_comments (gap_comments src t (g + wide [x]))).
Proof.
  intros A Rc R So Cl.
  destruct (sits_child 0 p _ a x _ _ A eq_refl R ltac:(congruence)) as (P & N & St & H & W & y0 & rest & T).
  assert (Wa : 1 <= width a) by (unfold width; rewrite T; cbn; lia). rewrite W in Cl |- *.
  destruct (sits_notes _ _ _ _ St) as (-> & _ & _).
  refine (gap_all p g _ _ _ _ _ q [] Rc eq_refl (pair_kids p a (Tok q) P I) eq_refl _ _ _ Cl _ _ _ _ _ _).
  - span.
  - span.
  - intros d (H1 & H2 & _ & _). cbn [lastnode] in H2. rewrite N in H2.
    pose proof (node_is s _ _ _ A) as Kn.
    assert (Ks : forall k', kind_eqb R_ARGUMENT_NAME_CLAUSE k' = false -> is_kind s k' p = false) by (intros k' E; exact (other_kind s _ _ _ Kn E)).
    assert (Nm : exists ka, node_kind s (0 :: p) = Some ka /\ is_argument_name ka = true).
    { pose proof (at_complete s _ Co _ A) as C. cbn [skel_syn complete] in C.
      cbn [ungram] in C. apply andb_prop in C as [C _]. cbn [obeys map fill] in C. apply andb_prop in C as [C _].
      destruct a as [ka ca|xa]; [|discriminate N]. exists ka. unfold node_kind. rewrite (at_child s p _ _ 0 _ A eq_refl).
      split; [reflexivity|]. revert C. clear. cbn [skel_kind skel_syn]. destruct ka; cbn; congruence. }
    destruct Nm as (ka & Nk & Na).
    unfold goes, place_comment, handle_for, handle_function, handle_while, handle_repeat, handle_if, handle_else, handle_paren,
      handle_name_clause. rewrite H1, !Ks, Kn, Nk, Na, H2 by reflexivity. cbn [or_else is_path andb]. rewrite path_eqb_refl. reflexivity.
  - right. lia.
Qed.
(** Between brackets without anything. *)
Lemma nothing p g k lk x z : at_path s p = Some (Node k [Tok x; Node lk []; Tok z]) -> reach s p g (Node k [Tok x; Node lk []; Tok z]) ->
  is_list k = false -> is_list lk = true -> special k = false -> gap_clean src t (g + 1) ->
  holds true (map (comment_of g 2) (placed_at pl Dangling p)) (all_comments (gap_comments src t (g + 1))).
Proof.
  intros A Rc L Ll Sp Cl.
  assert (K : kids p [Tok x; Node lk []; Tok z] = [(0 :: p, Tok x)] ++ (2 :: p, Tok z) :: []).
  { rewrite (kids_bracketed p x lk [] z Ll (Forall_nil _)). reflexivity. }
  unfold all_comments. rewrite <- (filter_all (gap_comments src t (g + 1))).
  refine (gap_picks p g k _ _ _ _ z [] Rc L K eq_refl _ _ _ Cl Dangling p (fun _ => true) _ _ _ _ _).
  - span.
  - span.
  - intros d (H1 & H2 & H3 & _). cbn [lastnode is_node snd firstnode] in H2, H3. unfold goes.
    rewrite (plain_rule s k d) by (rewrite ?H1; auto; apply (node_is s _ _ _ A)).
    unfold handle_hole, default_place. rewrite H2, H3, H1. destruct (d_own d); cbn [fst snd how_eqb andb]; apply path_eqb_refl.
  - symmetry. apply andb_true_intro. split; apply Nat.ltb_lt; lia.
Qed.
End Beside.

(** * The theorems *)

Section Theorems.
Variables (rf : bool) (src : text) (t : ts) (r : root).
Hypothesis W : well_parsed src t.
Hypothesis Cf : conforms t = true.
Hypothesis F : source_root rf src t = Some r.

Lemma source_sits : exists s, front_end rf s = Some r /\ attached_facts src t rf s /\ complete (skel_syn s) = true /\
  forall g e, In (g, e) (root_nodes r) ->
  exists p t0 e0, reads (attached s rf) p g t0 e0 /\ at_path s p = Some t0 /\ reach s p g t0 /\ like e e0.
Proof.
  destruct (source_site rf src t r W Cf F) as (s & H & AF & Co & _). exists s. split; [exact H|]. split; [exact AF|]. split; [exact Co|].
  intros g e I. pose proof (proj1 (Forall_forall _ _) (front_sited rf s r H) _ I) as (p & t0 & e1 & R & A & O & E).
  cbn [fst snd] in *. exists p, t0, e1. split; [exact R|]. split; [exact A|]. split; [|exact E].
  rewrite <- O. apply at_reach; [exact (af_plain _ _ _ _ AF)|exact A|exact (reads_plain _ _ _ _ _ R)].
Qed.
Lemma like_same e e0 : like e e0 -> match e with EArg _ _ _ _ => True | _ => e0 = e end.
Proof. intros [->|[x ->]]; destruct e0; cbn; auto. Qed.
Ltac site I := destruct source_sits as (s & _ & AF & Co & Site); destruct (Site _ _ I) as (p & t0 & e0 & R & A & Rc & E0);
  apply like_same in E0; cbn in E0; subst e0.
Ltac settle_form := match goal with Fk : form_of ?k = ?f |- _ => first [is_var k; destruct k; cbn in Fk; try discriminate Fk] end.

Theorem beside_holds G left right : beside r G left right -> gap_clean src t G ->
  shared left right (gap_comments src t G).
Proof.
  intros [g n op a I|g n a I|g n x op y d I D|g n x op y d I D|g n x op y d I D|g n f a I|g n a d I|g n a e b I|g n a e b I
         |g n k rc a e b I He Nh|g n k rc a e b I He] Cl; site I.
  - inversion R; subst. settle_form. eapply (operand src t rf s AF); eauto.
  - inversion R; subst. settle_form. eapply (operand src t rf s AF); eauto.
  - inversion R; subst. settle_form. eapply (operands src t rf s AF p g _ _ _ _ x y d A Rc); eauto.
  - inversion R; subst. settle_form. eapply (operands src t rf s AF p g _ _ _ _ x y d A Rc); eauto.
  - inversion R; subst. settle_form. eapply (operands src t rf s AF p g _ _ _ _ x y d A Rc); eauto.
  - inversion R; subst.
    eapply (partners src t rf s AF p g _ _ _ f a A Rc); eauto; try congruence;
      match goal with Fk : form_of ?k = FoCall _ |- _ => revert Fk; clear; destruct k; cbn; congruence end.
  - inversion R; subst. settle_form. eapply (partners src t rf s AF p g _ _ _ a d A Rc); eauto; congruence.
  - inversion R; subst. settle_form.
    assert (So : forall e', In e' (a ++ e :: b) -> sort_of e' = SoParam).
    { match goal with Rs : reads_sep _ _ _ _ _ _ _ |- _ => revert Rs; clear end. generalize (a ++ e :: b). intros l0 Rs.
      remember SoParam as so eqn:Es. induction Rs; intros e' J; [destruct J|destruct J as [<-|[]]; congruence|].
      destruct J as [<-|J]; [rewrite with_separator_sort; congruence|auto]. }
    eapply (before_item src t rf s AF p g _ _ _ _ _ _ a b e A Rc); eauto; try reflexivity.
    + apply expr_whole. rewrite So by (apply in_or_app; right; left; reflexivity). discriminate.
    + destruct (last_of a) as [e1|] eqn:El; [|exact Logic.I]. apply expr_whole. rewrite So; [discriminate|]. apply in_or_app. left.
      unfold last_of in El. apply in_rev. destruct (rev a); [discriminate El|]. injection El as ->. left. reflexivity.
  - inversion R; subst. settle_form.
    assert (So : forall e', In e' (a ++ e :: b) -> sort_of e' = SoParam).
    { match goal with Rs : reads_sep _ _ _ _ _ _ _ |- _ => revert Rs; clear end. generalize (a ++ e :: b). intros l0 Rs.
      remember SoParam as so eqn:Es. induction Rs; intros e' J; [destruct J|destruct J as [<-|[]]; congruence|].
      destruct J as [<-|J]; [rewrite with_separator_sort; congruence|auto]. }
    eapply (after_item src t rf s AF p g _ _ _ _ _ _ a b e A Rc); eauto; try reflexivity.
    apply expr_whole. rewrite So by (apply in_or_app; right; left; reflexivity). discriminate.
  - inversion R; subst.
    match goal with Fk : form_of ?k = FoArgs _ |- _ => assert (Lk : is_list k = false /\ special k = false)
      by (revert Fk; clear; destruct k; cbn; split; congruence) end. destruct Lk.
    eapply (before_item src t rf s AF p g _ _ _ _ _ _ a b e A Rc); eauto; reflexivity.
  - inversion R; subst.
    match goal with Fk : form_of ?k = FoArgs _ |- _ => assert (Lk : is_list k = false /\ special k = false)
      by (revert Fk; clear; destruct k; cbn; split; congruence) end. destruct Lk.
    eapply (after_item src t rf s AF p g _ _ _ _ _ _ a b e A Rc); eauto; reflexivity.
Qed.
Lemma args_sorted pl q i g l es : reads_sep pl SoArg q i g l es -> forall e, In e es -> sort_of e = SoArg.
Proof.
  remember SoArg as so eqn:Es. induction 1; intros e' J; [destruct J|destruct J as [<-|[]]; congruence|].
  destruct J as [<-|J]; [rewrite with_separator_sort; congruence|auto].
Qed.
Theorem holes_hold g n k rc a h b : In (g, EArgs n k rc (a ++ h :: b)) (root_nodes r) -> hole h = true ->
  gap_clean src t (g + 1 + wide a + List.length a) ->
  holds false (hole_notes a h) (all_comments (gap_comments src t (g + 1 + wide a + List.length a))).
Proof.
  intros I He Cl. site I. inversion R; subst.
  match goal with Fk : form_of ?k = FoArgs _ |- _ => assert (Lk : is_list k = false /\ special k = false)
    by (revert Fk; clear; destruct k; cbn; split; congruence) end. destruct Lk.
  eapply (in_hole src t rf s AF p g _ _ _ _ _ _ a b h A Rc); eauto; try reflexivity.
  match goal with Tz : token_of ?z = r_token k |- _ => destruct k; apply tok_kind in Tz; rewrite Tz; reflexivity end.
Qed.
Theorem behind_holes_hold g n k rc a h e b : In (g, EArgs n k rc (a ++ h :: e :: b)) (root_nodes r) ->
  hole h = true -> hole e = false -> gap_clean src t (g + 2 + wide a + List.length a) ->
  holds false (n_lead (notes_of e)) (all_comments (gap_comments src t (g + 2 + wide a + List.length a))).
Proof.
  intros I Hh He Cl. site I. inversion R; subst.
  match goal with Fk : form_of ?k = FoArgs _ |- _ => assert (Lk : is_list k = false /\ special k = false)
    by (revert Fk; clear; destruct k; cbn; split; congruence) end. destruct Lk.
  match goal with Rs : reads_sep _ _ _ _ _ _ _ |- _ => rename Rs into R1 end.
  pose proof (args_sorted _ _ _ _ _ _ R1) as So.
  assert (Se : sort_of e = SoArg) by (apply So, in_or_app; right; right; left; reflexivity).
  change (a ++ h :: e :: b) with (a ++ [h] ++ e :: b) in R1. rewrite app_assoc in R1.
  assert (Wh : wide [h] = 0) by (destruct h as [| | | | | | | | | | | | | | | | | |? [] []|]; try discriminate Hh; reflexivity).
  assert (EG : g + 2 + wide a + List.length a = g + 1 + wide (a ++ [h]) + List.length (a ++ [h])).
  { rewrite wide_app, app_length, Wh. cbn. lia. }
  rewrite EG in Cl |- *.
  eapply (behind_hole src t rf s AF Co p g _ _ _ _ _ _ (a ++ [h]) b e A Rc); eauto; reflexivity.
Qed.
Theorem names_hold g n x y k : In (g, EArg n (Some x) (Some y) k) (root_nodes r) -> gap_clean src t (g + wide [x]) ->
  holds false (n_lead (notes_of x)) (all_comments (gap_comments src t (g + wide [x]))).
Proof.
  intros I Cl. destruct source_sits as (s & _ & AF & Co & Site). destruct (Site _ _ I) as (p & t0 & e0 & R & A & Rc & E0).
  assert (R' : exists m, e0 = EArg n (Some x) (Some y) m).
  { destruct E0 as [<-|[c E]]; [eauto|]. destruct e0; try discriminate E. cbn in E. injection E as -> -> -> _. eauto. }
  destruct R' as [m ->]. inversion R; subst. settle_form. eapply (named src t rf s AF p g _ _ x y A Rc); eauto.
Qed.
Theorem clauses_hold g n x : In (g, ENameClause n x) (root_nodes r) -> gap_clean src t (g + wide [x]) ->
  holds false (n_lead (notes_of x)) (all_comments (gap_comments src t (g + wide [x]))).
Proof.
  intros I Cl. site I. inversion R; subst. settle_form. eapply (clause src t rf s AF Co p g _ _ x A Rc); eauto.
Qed.
Theorem empty_holds g n e : In (g, e) (root_nodes r) -> (exists k rc, e = EArgs n k rc []) \/ e = EParams n [] ->
  gap_clean src t (g + 1) -> holds true (n_dang n) (all_comments (gap_comments src t (g + 1))).
Proof.
  intros I [(k & rc & ->)| ->] Cl; site I; inversion R; subst.
  - match goal with Fk : form_of ?k = FoArgs _ |- _ => assert (Lk : is_list k = false /\ special k = false)
      by (revert Fk; clear; destruct k; cbn; split; congruence) end. destruct Lk.
    match goal with Rs : reads_sep _ _ _ _ _ ?l [] |- _ => assert (l = []) by (inversion Rs; reflexivity); subst end.
    refine (nothing src t rf s AF p g _ _ _ _ A Rc _ _ _ Cl); assumption || reflexivity.
  - settle_form.
    match goal with Rs : reads_sep _ _ _ _ _ ?l [] |- _ => assert (l = []) by (inversion Rs; reflexivity); subst end.
    refine (nothing src t rf s AF p g _ _ _ _ A Rc _ _ _ Cl); reflexivity.
Qed.
End Theorems.
