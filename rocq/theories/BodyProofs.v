(** The comments in the headers of loops, functions and conditions. *)
From Coq Require Import List Arith Bool NArith Lia.
From Verif Require Import Text TextFacts SettingsModel SyntaxKind ParseModel ParseSpec FmtTree FmtSpec
  CommentsModel CommentsSpec CommentsProofs AstModel AstReads AstProofs FrontProofs FactorySpec FactoryProofs FactoryTyped
  SourceSpec SourceProofs SourceCommentProofs AroundProofs PlaceSpec PlaceProofs PlaceSourceProofs BodySpec.
Import ListNotations.

(** * A gap among the children of a node *)

Section Gap.
Variables (src : text) (t : ts) (rf : bool) (s : syn).
Hypothesis AF : attached_facts src t rf s.
Notation pl := (attached s rf).

Lemma gap_holds p g k cs d1 x d2 h q sel y0 rest w g' m :
  reach s p g (Node k cs) -> is_list k = false -> kids p cs = d1 ++ x :: d2 ->
  syn_tokens (snd x) = y0 :: rest -> 1 <= kwidth d1 ->
  (forall u, In u pl -> d_enclosing (pt_comment u) = p -> d_preceding (pt_comment u) = lastnode d1 ->
     d_following (pt_comment u) = (if is_node (snd x) then Some (fst x) else firstnode d2) ->
     d_next (pt_comment u) = Some (p_kind y0) ->
     how_eqb (pt_how u) h && path_eqb (pt_path u) q = sel (d_own (pt_comment u))) ->
  gap_clean src t (g + kwidth d1) ->
  w = (g' <? g + kwidth d1) && (g + kwidth d1 <? g' + m) ->
  holds w (map (comment_of g' m) (placed_at pl h q))
    (map fst (filter (fun c => sel (snd c)) (gap_comments src t (g + kwidth d1)))).
Proof.
  intros Rc L K Tx W1 T Cl Ew.
  assert (Wx : 1 <= width (snd x)) by (unfold width; rewrite Tx; cbn; lia).
  destruct (reach_bound _ _ _ _ Rc) as (u1 & v1 & E0 & Lu).
  cbn [syn_tokens] in E0. rewrite <- (kids_tokens p cs), K, ktoks_app in E0. destruct x as [xq xc]. cbn [snd fst] in *.
  change (ktoks ((xq, xc) :: d2)) with (syn_tokens xc ++ ktoks d2) in E0. rewrite Tx in E0.
  assert (E1 : syn_tokens s = (u1 ++ ktoks d1) ++ y0 :: (rest ++ ktoks d2 ++ v1)).
  { rewrite E0, <- !app_assoc. cbn [app]. rewrite <- ?app_assoc. reflexivity. }
  assert (Ln : List.length (u1 ++ ktoks d1) = g + kwidth d1) by (rewrite app_length, Lu; reflexivity).
  assert (LG : g + kwidth d1 < List.length (syn_tokens s)).
  { rewrite E1, app_length, Ln. cbn. lia. }
  destruct (af_split _ _ _ _ AF _ LG) as (A1 & A2 & A3 & E2 & C & Fw & F1 & F2 & F3). specialize (C Cl).
  assert (I2 : forall u, In u A2 -> In u pl)
    by (intros u J; rewrite E2; apply in_or_app; right; apply in_or_app; auto).
  unfold holds, placed_at. rewrite E2, !filter_app, !map_app.
  eexists _, _, _. split; [reflexivity|]. split.
  - rewrite map_map. refine (picked sel _ A2 _ _ C).
    intros u J. pose proof (proj1 (Forall_forall _ _) (af_settled _ _ _ _ AF) u (I2 u J)) as [Ar Au].
    destruct (around_opening s _ Ar) as (e1 & x & e2 & Op & Pe & Fo).
    assert (Op' : opening s (d_gap (pt_comment u)) p d1 (xq, xc) d2).
    { exists g, k, cs. split; [exact Rc|]. split; [exact L|]. split; [exact K|]. split; [exact Wx|]. split; [left; exact W1|].
      exact (proj1 (Forall_forall _ _) F2 u J). }
    destruct (opening_same s (af_plain _ _ _ _ AF) _ _ _ _ _ _ _ _ _ Op Op') as (Ep & -> & -> & ->).
    cbn [fst snd] in Fo.
    apply T; auto.
    + destruct Fo as [[-> _]|Fo]; [cbn in W1; lia|exact Fo].
    + destruct (proj1 (Forall_forall _ _) (af_next _ _ _ _ AF) u (I2 u J)) as (y & Ny & ->).
      pose proof (proj1 (Forall_forall _ _) F2 u J) as Q. cbn in Q.
      rewrite Q, <- Ln, E1, nth_error_app2, Nat.sub_diag in Ny by lia. cbn in Ny. congruence.
  - apply Forall_map, Forall_forall. intros u J. apply filter_In in J as [J _].
    pose proof (proj1 (Forall_forall _ _) F2 u J) as Q. cbn in Q. cbn [c_within comment_of]. rewrite Q. symmetry. exact Ew.
Qed.
End Gap.

(** * Expressions do not begin with a closing parenthesis *)

Definition closers : list kind := [COMMA; R_PAREN; R_BRACK; R_BRACK2].
Definition begins_well (c : syn) : Prop :=
  exists y rest, syn_tokens c = y :: rest /\ one_of closers (p_kind y) = false.
Lemma first_child c cs : begins_well c -> begins_well (Node R_ROOT (c :: cs)).
Proof. intros (y & rest & E & N). exists y. cbn [syn_tokens flat_map]. rewrite E. eexists. split; [reflexivity|exact N]. Qed.
Lemma token_begins x cs k : one_of closers (p_kind x) = false -> begins_well (Node k (Tok x :: cs)).
Proof. intros N. exists x. eexists. split; [reflexivity|exact N]. Qed.

Lemma complete_begins c : complete (skel_syn c) = true -> one_of expressions (syn_kind c) = true -> begins_well c.
Proof.
  induction c as [k cs IH|x] using syn_ind'.
  2:{ intros C O. unfold syn_kind in O. cbn in C, O. destruct (p_kind x); try discriminate O; discriminate C. }
  intros C O. unfold syn_kind in O. cbn [skel_syn skel_kind] in O.
  cbn [skel_syn complete] in C. rewrite map_skel_kind, forallb_skel in C.
  assert (Tk : forall l x r, cs = x :: r -> one_of l (syn_kind x) = true -> complete (skel_syn x) = true ->
     tokens_only l = true -> existsb (one_of closers) l = false -> begins_well (Node k cs)).
  { intros l x r -> O1 C1 T N. destruct (child_tok _ _ T O1 C1) as (y & -> & I). apply token_begins.
    destruct (one_of closers (p_kind y)) eqn:Q; [|reflexivity]. rewrite <- N. symmetry.
    apply existsb_exists. exists (p_kind y). auto. }
  assert (Ex : forall x r, cs = x :: r -> one_of expressions (syn_kind x) = true -> complete (skel_syn x) = true ->
     begins_well (Node k cs)).
  { intros x r -> O1 C1. apply first_child. apply (Forall_inv IH); assumption. }
  destruct cs as [|x cs].
  { destruct k; try discriminate O; cbn in C; discriminate C. }
  assert (Sub : forall l, forallb (one_of expressions) l = true -> one_of l (syn_kind x) = true ->
     one_of expressions (syn_kind x) = true).
  { intros l F I. unfold one_of in I. apply existsb_exists in I as (y & I & E). apply kind_eqb_eq in E. rewrite <- E in I.
    rewrite forallb_forall in F. exact (F _ I). }
  destruct k; try discriminate O; cbn [ungram obeys map fill forallb] in C;
    apply andb_prop in C as [C1 C2]; apply andb_prop in C1 as [C1 _]; apply andb_prop in C2 as [C2 _];
    try first [ exact (Tk _ _ _ eq_refl C1 C2 eq_refl eq_refl)
          | exact (Ex _ _ eq_refl C1 C2) ].
  exact (Ex _ _ eq_refl (Sub selectors eq_refl C1) C2).
Qed.
Lemma at_complete s p : complete (skel_syn s) = true -> forall c, at_path s p = Some c -> complete (skel_syn c) = true.
Proof.
  intros C. induction p as [|i p IH]; intros c A; cbn [at_path] in A; [injection A as <-; exact C|].
  destruct (at_path s p) as [[k cs|]|]; try discriminate A. specialize (IH _ eq_refl).
  cbn [skel_syn complete] in IH. destruct (ungram k); [|discriminate IH]. apply andb_prop in IH as [_ IH].
  rewrite forallb_skel, forallb_forall in IH. apply IH. exact (nth_error_In _ _ A).
Qed.
Lemma expression_kind k : is_expression k = true -> one_of expressions k = true.
Proof. destruct k; (discriminate || reflexivity). Qed.

(** * Bodies *)

Lemma form_if k : form_of k = FoIf -> k = R_IF_STATEMENT.
Proof. destruct k; cbn; congruence. Qed.
Lemma form_for k : form_of k = FoFor -> k = R_FOR_STATEMENT.
Proof. destruct k; cbn; congruence. Qed.
Lemma form_while k : form_of k = FoWhile -> k = R_WHILE_STATEMENT.
Proof. destruct k; cbn; congruence. Qed.
Lemma form_repeat k : form_of k = FoRepeat -> k = R_REPEAT_STATEMENT.
Proof. destruct k; cbn; congruence. Qed.
Lemma form_function k : form_of k = FoFunction -> k = R_FUNCTION_DEFINITION.
Proof. destruct k; cbn; congruence. Qed.
Lemma form_else k : form_of k = FoElse -> k = R_ELSE_CLAUSE.
Proof. destruct k; cbn; congruence. Qed.
Lemma form_params k : form_of k = FoParams -> k = R_PARAMETERS.
Proof. destruct k; cbn; congruence. Qed.

Section Bodies.
Variables (src : text) (t : ts) (rf : bool) (s : syn).
Notation pl := (attached s rf).

(** Where the comments of a body are. *)
Lemma body_at q g tb b : reads pl q g tb b -> at_path s q = Some tb ->
  exists h q' g' m, place_body s q = (h, q') /\ body_notes b = map (comment_of g' m) (placed_at pl h q') /\
    g <= g' /\ g' + m <= g + width tb.
Proof.
  intros R A.
  assert (Other : is_kind s R_BRACED_EXPRESSIONS q = false -> body_notes b = n_lead (notes_of b) ->
    exists h q' g' m, place_body s q = (h, q') /\ body_notes b = map (comment_of g' m) (placed_at pl h q') /\
    g <= g' /\ g' + m <= g + width tb).
  { intros K E. exists Leading, q, g, (List.length (syn_tokens tb)). unfold place_body. rewrite K.
    split; [reflexivity|]. rewrite E, (notes_read _ _ _ _ _ R). split; [reflexivity|]. unfold width. lia. }
  assert (Kk : forall k cs, tb = Node k cs -> is_kind s R_BRACED_EXPRESSIONS q = kind_eqb k R_BRACED_EXPRESSIONS).
  { intros k cs ->. unfold is_kind, node_kind. rewrite A. reflexivity. }
  destruct R as [| | | | | | | | | | | | | | | |p g k a lk l z es Fk Ta Tz Lk Rl| | | | | | | |];
    try (apply Other; [rewrite (Kk _ _ eq_refl); apply kind_eqb_neq; intros ->; discriminate|reflexivity]).
  apply form_braced in Fk as ->. clear Other. specialize (Kk _ _ eq_refl). cbn in Kk.
  assert (Kl : is_kind s R_EXPRESSION_LIST (1 :: p) = true).
  { unfold is_kind, node_kind. rewrite (at_child s p _ _ 1 _ A eq_refl), Lk. reflexivity. }
  assert (Al : at_path s (1 :: p) = Some (Node lk l)) by exact (at_child s p _ _ 1 _ A eq_refl).
  unfold place_body, first_expression, expression_field. rewrite Kk, Kl.
  inversion Rl as [? ? ? ? E1 E2 E3 E4 E5|so q0 i0 g0 x e r0 es0 R1 S1 R2 E1 E2 E3 E4 E5 E6]; subst.
  - exists Dangling, p, g, (List.length (syn_tokens (Node R_BRACED_EXPRESSIONS [Tok a; Node R_EXPRESSION_LIST []; Tok z]))).
    assert (node_kind s (0 :: 1 :: p) = None) as ->.
    { unfold node_kind. cbn [at_path] in *. rewrite Al. reflexivity. }
    split; [reflexivity|]. split; [reflexivity|]. unfold width. lia.
  - destruct (reads_expression pl _ _ _ _ R1 S1) as (kx & cx & -> & Ex).
    assert (A1 : at_path s (0 :: 1 :: p) = Some (Node kx cx)) by exact (at_child s (1 :: p) _ _ 0 _ Al eq_refl).
    exists Leading, (0 :: 1 :: p), (g + 1), (List.length (syn_tokens (Node kx cx))).
    assert (node_kind s (0 :: 1 :: p) = Some kx) as -> by (unfold node_kind; rewrite A1; reflexivity).
    rewrite Ex. split; [reflexivity|]. cbn [body_notes]. rewrite (notes_read _ _ _ _ _ R1).
    split; [reflexivity|]. unfold width. cbn [syn_tokens flat_map]. cbn [List.length app]. rewrite !app_length. cbn [List.length]. lia.
Qed.
Lemma alternative_at q g tb b : reads pl q g tb b -> sort_of b = SoExpr -> at_path s q = Some tb ->
  exists h q' g' m, place_alternative s q = Some (h, q') /\
    alternative_notes b = map (comment_of g' m) (placed_at pl h q') /\ g <= g' /\ g' + m <= g + width tb.
Proof.
  intros R Sb A.
  assert (Other : is_kind s R_IF_STATEMENT q = false -> alternative_notes b = body_notes b ->
    exists h q' g' m, place_alternative s q = Some (h, q') /\
    alternative_notes b = map (comment_of g' m) (placed_at pl h q') /\ g <= g' /\ g' + m <= g + width tb).
  { intros K E. destruct (body_at q g tb b R A) as (h & q' & g' & m & P & N & B).
    exists h, q', g', m. unfold place_alternative. rewrite K, P, E. auto. }
  assert (If : forall g1 t1 b1 cs, tb = Node R_IF_STATEMENT cs -> reads pl (4 :: q) g1 t1 b1 -> sort_of b1 = SoExpr ->
     nth_error cs 4 = Some t1 -> alternative_notes b = body_notes b1 -> g <= g1 -> g1 + width t1 <= g + width tb ->
     exists h q' g' m, place_alternative s q = Some (h, q') /\
    alternative_notes b = map (comment_of g' m) (placed_at pl h q') /\ g <= g' /\ g' + m <= g + width tb).
  { intros g1 t1 b1 cs -> R1 S1 N1 E L1 L2.
    assert (A1 : at_path s (4 :: q) = Some t1) by exact (at_child s q _ _ 4 _ A N1).
    destruct (body_at _ _ _ _ R1 A1) as (h & q' & g' & m & P & N & B1 & B2).
    destruct (reads_expression pl _ _ _ _ R1 S1) as (kx & cx & -> & Ex).
    exists h, q', g', m. unfold place_alternative, is_kind, expression_field, node_kind. rewrite A, A1, Ex. cbn [kind_eqb].
    rewrite kind_eqb_refl, P, E. split; [reflexivity|]. split; [exact N|]. lia. }
  assert (Kk : forall k cs, tb = Node k cs -> is_kind s R_IF_STATEMENT q = kind_eqb k R_IF_STATEMENT).
  { intros k cs ->. unfold is_kind, node_kind. rewrite A. reflexivity. }
  destruct R as [| | | | | | | | | |? ? k ? ? ? ? ? ? ? Fk ? ? ? ? ? R4|? ? k ? ? ? ? ? ? ? ? ? Fk ? ? ? ? ? R4| | | | | | | | | | | | |];
    try (apply Other; [rewrite (Kk _ _ eq_refl); apply kind_eqb_neq; intros ->; discriminate|reflexivity]).
  - apply form_if in Fk as ->. eapply (If _ _ _ _ eq_refl R4); [assumption|reflexivity|reflexivity|lia|].
    unfold width. cbn. rewrite !app_length. cbn. rewrite ?app_length. cbn. lia.
  - apply form_if in Fk as ->. eapply (If _ _ _ _ eq_refl R4); [assumption|reflexivity|reflexivity|lia|].
    unfold width. cbn. rewrite !app_length. cbn. rewrite ?app_length. cbn. lia.
Qed.
End Bodies.

(** * The places *)

Section Source.
Variables (rf : bool) (src : text) (t : ts) (r : root).
Hypothesis W : well_parsed src t.
Hypothesis Cf : conforms t = true.
Hypothesis F : source_root rf src t = Some r.

Definition plain_item (e : expr) : Prop := match e with EArg _ _ _ _ | EParam _ _ _ => False | _ => True end.

Lemma source_site : exists s, front_end rf s = Some r /\ attached_facts src t rf s /\ complete (skel_syn s) = true /\
  forall g e, In (g, e) (root_nodes r) -> plain_item e ->
  exists p t0, reads (attached s rf) p g t0 e /\ at_path s p = Some t0 /\ reach s p g t0.
Proof.
  destruct (source_attached rf src t r W F) as (s & H & AF & _). exists s. split; [exact H|]. split; [exact AF|]. split.
  - destruct (af_green _ _ _ _ AF) as (g & P & O). rewrite (open_skel g s O). exact (parsed_complete src t g W Cf P).
  - intros g e I Pi. pose proof (proj1 (Forall_forall _ _) (front_sited rf s r H) _ I) as (p & t0 & e1 & R & A & O & E).
    cbn [fst snd] in *. exists p, t0.
    assert (e1 = e) as ->.
    { destruct E as [->|[c ->]]; [reflexivity|]. destruct e1; try reflexivity; destruct Pi. }
    split; [exact R|]. split; [exact A|]. rewrite <- O.
    apply at_reach; [exact (af_plain _ _ _ _ AF)|exact A|exact (reads_plain _ _ _ _ _ R)].
Qed.
End Source.

Lemma tok_kind x k y : token_of x = tk k y -> p_kind x = k.
Proof. unfold token_of, tk. intros H. injection H as H _. exact H. Qed.

Lemma wide_one pl p g c e : reads pl p g c e -> wide [e] = width c.
Proof. intros R. unfold wide. cbn [flat_map]. rewrite app_nil_r. exact (reads_wide _ _ _ _ _ R). Qed.
Lemma wide_two pl p g c e p' g' c' e' : reads pl p g c e -> reads pl p' g' c' e' -> wide [e; e'] = width c + width c'.
Proof.
  intros R R'. unfold wide. cbn [flat_map]. rewrite app_nil_r, app_length.
  rewrite (reads_wide _ _ _ _ _ R), (reads_wide _ _ _ _ _ R'). reflexivity.
Qed.

Section Rules.
Variable root : syn.
Definition goes (d : decorated) : how * path :=
  match place_comment root d with Some x => x | None => default_place d end.
Definition handlers (k : kind) (d : decorated) : choice :=
  match k with
  | R_FOR_STATEMENT => handle_for root d | R_FUNCTION_DEFINITION => handle_function root d
  | R_WHILE_STATEMENT => handle_while root d | R_REPEAT_STATEMENT => handle_repeat root d
  | R_IF_STATEMENT => handle_if root d | R_ELSE_CLAUSE => handle_else root d
  | _ => None
  end.
Definition ruled (k : kind) : bool :=
  one_of [R_FOR_STATEMENT; R_FUNCTION_DEFINITION; R_WHILE_STATEMENT; R_REPEAT_STATEMENT; R_IF_STATEMENT; R_ELSE_CLAUSE] k.
Lemma ruled_place k d : is_kind root k (d_enclosing d) = true -> ruled k = true ->
  place_comment root d = or_else (handlers k d) (handle_hole root d).
Proof.
  intros K R. unfold place_comment.
  assert (N : forall k', kind_eqb k k' = false -> is_kind root k' (d_enclosing d) = false)
    by (intros k' E; exact (other_kind root _ _ _ K E)).
  assert (Nn : handle_name_clause root d = None) by (unfold handle_name_clause; rewrite N; [reflexivity|];
    apply kind_eqb_neq; intros ->; discriminate).
  assert (Na : handle_argument root d = None) by (unfold handle_argument; rewrite N; [reflexivity|];
    apply kind_eqb_neq; intros ->; discriminate).
  assert (Np : handle_paren root d = None) by (unfold handle_paren; rewrite N; [reflexivity|];
    apply kind_eqb_neq; intros ->; discriminate).
  rewrite Nn, Na, Np. cbn [or_else].
  assert (N1 : kind_eqb k R_FOR_STATEMENT = false -> handle_for root d = None)
    by (intros E; unfold handle_for; rewrite (N _ E); reflexivity).
  assert (N2 : kind_eqb k R_FUNCTION_DEFINITION = false -> handle_function root d = None)
    by (intros E; unfold handle_function; rewrite (N _ E); reflexivity).
  assert (N3 : kind_eqb k R_WHILE_STATEMENT = false -> handle_while root d = None)
    by (intros E; unfold handle_while; rewrite (N _ E); reflexivity).
  assert (N4 : kind_eqb k R_REPEAT_STATEMENT = false -> handle_repeat root d = None)
    by (intros E; unfold handle_repeat; rewrite (N _ E); reflexivity).
  assert (N5 : kind_eqb k R_IF_STATEMENT = false -> handle_if root d = None)
    by (intros E; unfold handle_if; rewrite (N _ E); reflexivity).
  assert (N6 : kind_eqb k R_ELSE_CLAUSE = false -> handle_else root d = None)
    by (intros E; unfold handle_else; rewrite (N _ E); reflexivity).
  unfold ruled, one_of in R. apply existsb_exists in R as (k' & I & E). apply kind_eqb_eq in E as ->.
  cbn [In] in I.
  repeat destruct I as [<-|I]; try contradiction; rewrite ?N1, ?N2, ?N3, ?N4, ?N5, ?N6 by reflexivity; cbn [or_else handlers];
  repeat match goal with |- context [match ?x with Some _ => _ | None => _ end] => destruct x end; reflexivity.
Qed.
End Rules.

Section GapAll.
Variables (src : text) (t : ts) (rf : bool) (s : syn).
Hypothesis AF : attached_facts src t rf s.
Notation pl := (attached s rf).
Variables (p : path) (g : nat) (k : kind) (cs : list syn) (d1 : list (path * syn)) (x : path * syn) (d2 : list (path * syn))
  (y0 : parts) (rest : list parts).
Hypothesis Rc : reach s p g (Node k cs).
Hypothesis L : is_list k = false.
Hypothesis K : kids p cs = d1 ++ x :: d2.
Hypothesis Tx : syn_tokens (snd x) = y0 :: rest.
Hypothesis W1 : 1 <= kwidth d1.
Variable G : nat.
Hypothesis EG : G = g + kwidth d1.
Hypothesis Cl : gap_clean src t G.

(** A comment in the gap. *)
Definition here (d : decorated) : Prop :=
  d_enclosing d = p /\ d_preceding d = lastnode d1 /\
  d_following d = (if is_node (snd x) then Some (fst x) else firstnode d2) /\ d_next d = Some (p_kind y0).

Lemma gap_goes h q w g' m : (forall d, here d -> goes s d = (h, q)) ->
  w = (g' <? G) && (G <? g' + m) ->
  holds w (map (comment_of g' m) (placed_at pl h q)) (all_comments (gap_comments src t G)).
Proof.
  intros T Ew. unfold all_comments. rewrite <- (filter_all (gap_comments src t G)).
  change (filter (fun _ => true)) with (filter (fun c : text * bool => (fun _ : bool => true) (snd c))).
  rewrite EG in *. refine (gap_holds src t rf s AF p g k cs d1 x d2 h q (fun _ => true) y0 rest w g' m Rc L K Tx W1 _ Cl Ew).
  intros u Iu E1 E2 E3 E4. destruct (proj1 (Forall_forall _ _) (af_settled _ _ _ _ AF) u Iu) as [_ Au].
  assert (Hh : here (pt_comment u)) by (unfold here; auto). specialize (T _ Hh). unfold goes in T.
  unfold add_comment in Au. rewrite T in Au. rewrite Au. cbn [pt_how pt_path]. rewrite path_eqb_refl. destruct h; reflexivity.
Qed.
Lemma gap_own h1 q1 h2 q2 : q1 <> q2 -> (forall d, here d -> goes s d = if d_own d then (h1, q1) else (h2, q2)) ->
  (forall w g' m, w = (g' <? G) && (G <? g' + m) ->
     holds w (map (comment_of g' m) (placed_at pl h1 q1)) (own_line (gap_comments src t G))) /\
  (forall w g' m, w = (g' <? G) && (G <? g' + m) ->
     holds w (map (comment_of g' m) (placed_at pl h2 q2)) (end_of_line (gap_comments src t G))).
Proof.
  intros Nq T. split; intros w g' m Ew; unfold own_line, end_of_line.
  - rewrite EG in *. refine (gap_holds src t rf s AF p g k cs d1 x d2 h1 q1 (fun b => b) y0 rest w g' m Rc L K Tx W1 _ Cl Ew).
    intros u Iu E1 E2 E3 E4. destruct (proj1 (Forall_forall _ _) (af_settled _ _ _ _ AF) u Iu) as [_ Au].
    assert (Hh : here (pt_comment u)) by (unfold here; auto). specialize (T _ Hh). unfold goes in T.
    unfold add_comment in Au. rewrite T in Au. destruct (d_own (pt_comment u)) eqn:Ow; rewrite Au; cbn [pt_how pt_path pt_comment].
    + rewrite path_eqb_refl. destruct h1; reflexivity.
    + destruct (path_eqb q2 q1) eqn:Q; [apply path_eqb_eq in Q; congruence|]. apply andb_false_r.
  - rewrite EG in *. refine (gap_holds src t rf s AF p g k cs d1 x d2 h2 q2 negb y0 rest w g' m Rc L K Tx W1 _ Cl Ew).
    intros u Iu E1 E2 E3 E4. destruct (proj1 (Forall_forall _ _) (af_settled _ _ _ _ AF) u Iu) as [_ Au].
    assert (Hh : here (pt_comment u)) by (unfold here; auto). specialize (T _ Hh). unfold goes in T.
    unfold add_comment in Au. rewrite T in Au. destruct (d_own (pt_comment u)) eqn:Ow; rewrite Au; cbn [pt_how pt_path pt_comment].
    + destruct (path_eqb q1 q2) eqn:Q; [apply path_eqb_eq in Q; congruence|]. apply andb_false_r.
    + rewrite path_eqb_refl. destruct h2; reflexivity.
Qed.
End GapAll.

Section Statements.
Variables (src : text) (t : ts) (rf : bool) (s : syn).
Hypothesis AF : attached_facts src t rf s.
Hypothesis Co : complete (skel_syn s) = true.
Notation pl := (attached s rf).

Lemma expr_child i p g c e k cs : at_path s p = Some (Node k cs) -> nth_error cs i = Some c ->
  reads pl (i :: p) g c e -> sort_of e = SoExpr ->
  plain c /\ is_node c = true /\ expression_field s i p = Some (i :: p) /\ at_path s (i :: p) = Some c /\
  exists y rest, syn_tokens c = y :: rest /\ p_kind y <> R_PAREN.
Proof.
  intros A N R So. pose proof (at_child s p k cs i c A N) as Ac.
  split; [exact (reads_plain _ _ _ _ _ R)|].
  destruct (reads_expression pl _ _ _ _ R So) as (kx & cx & -> & Ex). split; [reflexivity|].
  split; [unfold expression_field, node_kind; rewrite Ac, Ex; reflexivity|]. split; [exact Ac|].
  destruct (complete_begins _ (at_complete s _ Co _ Ac)) as (y & rest & E & B); [apply expression_kind; exact Ex|].
  exists y, rest. split; [exact E|]. intros Q. rewrite Q in B. discriminate B.
Qed.
Lemma node_is p k cs : at_path s p = Some (Node k cs) -> is_kind s k p = true.
Proof. intros A. unfold is_kind, node_kind. rewrite A. apply kind_eqb_refl. Qed.
Lemma not_paren y : p_kind y <> R_PAREN -> kind_eqb (p_kind y) R_PAREN = false.
Proof. intros N. apply kind_eqb_neq. exact N. Qed.

Ltac open_gap H := destruct H as (He & Hp & Hf & Hn); cbn [is_node fst snd firstnode lastnode app] in Hp, Hf.
Ltac span := unfold kwidth, ktoks; cbn [flat_map syn_tokens snd List.length app];
  rewrite ?app_length; cbn [List.length]; rewrite ?app_length; unfold width; cbn [List.length]; lia.
Ltac within := symmetry; unfold width in *; first
  [ apply andb_true_intro; split; apply Nat.ltb_lt; lia
  | apply andb_false_iff; first [left; apply Nat.ltb_ge; lia | right; apply Nat.ltb_ge; lia] ].
Ltac gap_at d1 T :=
  match goal with
  | Cl : gap_clean src t _, Rc : reach s ?p ?g (Node _ ?cs), K : kids ?p ?cs = _ |- _ =>
    eapply (gap_goes src t rf s AF p g _ cs d1 _ _ _ _ Rc eq_refl K T); [span|span|exact Cl| |];
    [let Hh := fresh in intros dd Hh; open_gap Hh|try match goal with E : List.length (syn_tokens _) = _ |- _ => rewrite E end; within]
  end.

Theorem for_placed p g t0 n v se b : reads pl p g t0 (EFor n v se b) -> at_path s p = Some t0 -> reach s p g t0 ->
  (forall d, In d [1; 2; 2 + wide [v]; 3 + wide [v]; 3 + wide [v; se]] -> gap_clean src t (g + d) ->
     holds true (n_lead n) (all_comments (gap_comments src t (g + d)))) /\
  (gap_clean src t (g + 4 + wide [v; se]) ->
     holds false (body_notes b) (all_comments (gap_comments src t (g + 4 + wide [v; se])))).
Proof.
  intros R A Rc.
  inversion R as [| | | | | | | | | | | | |? ? k f a v0 ? i s0 ? z b0 ? Fk Tf Ta Ti Tz Rv Sv Rs Ss Rb Sb| | | | | | | | | | |]; subst.
  apply form_for in Fk as ->.
  set (cs := [Tok f; Tok a; v0; Tok i; s0; Tok z; b0]) in *.
  destruct (expr_child 2 p _ v0 v _ cs A eq_refl Rv Sv) as (Pv & Nv & Fv & Av & yv & rv & Ev & Kv).
  destruct (expr_child 4 p _ s0 se _ cs A eq_refl Rs Ss) as (Ps & Ns & Fs & As & ys & rs & Es & Ks).
  destruct (expr_child 6 p _ b0 b _ cs A eq_refl Rb Sb) as (Pb & Nb & Fb & Ab & yb & rb & Eb & Kb).
  assert (K : kids p cs = [(0 :: p, Tok f); (1 :: p, Tok a); (2 :: p, v0); (3 :: p, Tok i); (4 :: p, s0); (5 :: p, Tok z); (6 :: p, b0)]).
  { unfold kids, cs. cbn [kids_from]. rewrite (spread_plain _ _ Pv), (spread_plain _ _ Ps), (spread_plain _ _ Pb). reflexivity. }
  assert (Wn : List.length (syn_tokens (Node R_FOR_STATEMENT cs)) = 4 + width v0 + width s0 + width b0).
  { unfold cs. cbn [syn_tokens flat_map]. rewrite !app_length. unfold width. cbn [List.length]. lia. }
  assert (Wb : 1 <= width b0) by (unfold width; rewrite Eb; cbn; lia).
  rewrite (wide_one _ _ _ _ _ Rv), (wide_two _ _ _ _ _ _ _ _ _ Rv Rs).
  pose proof (node_is _ _ _ A) as Kn.
  split.
  - intros d I Cl. cbn [note n_lead].
    assert (Go : forall dd, d_enclosing dd = p -> is_path (6 :: p) (d_following dd) = false \/ d_next dd = Some R_PAREN ->
      goes s dd = (Leading, p)).
    { intros dd E O. unfold goes. rewrite (ruled_place s R_FOR_STATEMENT dd) by (rewrite ?E; auto).
      cbn [handlers]. unfold handle_for. rewrite E, Kn, Fb. destruct O as [->| ->]; cbn; [reflexivity|].
      rewrite andb_false_r. reflexivity. }
    cbn [In] in I. destruct I as [<-|[<-|[<-|[<-|[<-|[]]]]]].
    + gap_at [(0 :: p, Tok f)] (eq_refl [a]). apply Go; [exact He|]. rewrite Nv in Hf. left. rewrite Hf. reflexivity.
    + gap_at [(0 :: p, Tok f); (1 :: p, Tok a)] Ev. apply Go; [exact He|]. rewrite Nv in Hf. left. rewrite Hf. reflexivity.
    + gap_at [(0 :: p, Tok f); (1 :: p, Tok a); (2 :: p, v0)] (eq_refl [i]).
      apply Go; [exact He|]. rewrite Ns in Hf. left. rewrite Hf. reflexivity.
    + gap_at [(0 :: p, Tok f); (1 :: p, Tok a); (2 :: p, v0); (3 :: p, Tok i)] Es.
      apply Go; [exact He|]. rewrite Ns in Hf. left. rewrite Hf. reflexivity.
    + gap_at [(0 :: p, Tok f); (1 :: p, Tok a); (2 :: p, v0); (3 :: p, Tok i); (4 :: p, s0)] (eq_refl [z]).
      apply Go; [exact He|]. right. rewrite Hn, (tok_kind _ _ _ Tz). reflexivity.
  - intros Cl. destruct (body_at rf s _ _ _ _ Rb Ab) as (h & q' & g' & m & Pb' & -> & B1 & B2).
    gap_at [(0 :: p, Tok f); (1 :: p, Tok a); (2 :: p, v0); (3 :: p, Tok i); (4 :: p, s0); (5 :: p, Tok z)] Eb.
    unfold goes. rewrite (ruled_place s R_FOR_STATEMENT dd) by (rewrite ?He; auto).
    cbn [handlers]. unfold handle_for. rewrite He, Kn, Fb, Hf, Hn, Nb. cbn [is_path]. rewrite path_eqb_refl, (not_paren _ Kb), Pb'. reflexivity.
Qed.

Theorem while_placed p g t0 n c b : reads pl p g t0 (EWhile n c b) -> at_path s p = Some t0 -> reach s p g t0 ->
  (forall d, In d [1; 2; 2 + wide [c]] -> gap_clean src t (g + d) ->
     holds true (n_lead n) (all_comments (gap_comments src t (g + d)))) /\
  (gap_clean src t (g + 3 + wide [c]) ->
     holds false (body_notes b) (all_comments (gap_comments src t (g + 3 + wide [c])))).
Proof.
  intros R A Rc.
  inversion R as [| | | | | | | | | | | | | |? ? k f a v0 ? z b0 ? Fk Tf Ta Tz Rv Sv Rb Sb| | | | | | | | | |]; subst.
  apply form_while in Fk as ->.
  set (cs := [Tok f; Tok a; v0; Tok z; b0]) in *.
  destruct (expr_child 2 p _ v0 c _ cs A eq_refl Rv Sv) as (Pv & Nv & Fv & Av & yv & rv & Ev & Kv).
  destruct (expr_child 4 p _ b0 b _ cs A eq_refl Rb Sb) as (Pb & Nb & Fb & Ab & yb & rb & Eb & Kb).
  assert (K : kids p cs = [(0 :: p, Tok f); (1 :: p, Tok a); (2 :: p, v0); (3 :: p, Tok z); (4 :: p, b0)]).
  { unfold kids, cs. cbn [kids_from]. rewrite (spread_plain _ _ Pv), (spread_plain _ _ Pb). reflexivity. }
  assert (Wn : List.length (syn_tokens (Node R_WHILE_STATEMENT cs)) = 3 + width v0 + width b0).
  { unfold cs. cbn [syn_tokens flat_map]. rewrite !app_length. unfold width. cbn [List.length]. lia. }
  assert (Wb : 1 <= width b0) by (unfold width; rewrite Eb; cbn; lia).
  rewrite (wide_one _ _ _ _ _ Rv). pose proof (node_is _ _ _ A) as Kn.
  split.
  - intros d I Cl. cbn [note n_lead].
    assert (Go : forall dd, d_enclosing dd = p -> is_path (4 :: p) (d_following dd) = false \/ d_next dd = Some R_PAREN ->
      goes s dd = (Leading, p)).
    { intros dd E O. unfold goes. rewrite (ruled_place s R_WHILE_STATEMENT dd) by (rewrite ?E; auto).
      cbn [handlers]. unfold handle_while. rewrite E, Kn, Fb. destruct O as [->| ->]; cbn; [reflexivity|].
      rewrite andb_false_r. reflexivity. }
    cbn [In] in I. destruct I as [<-|[<-|[<-|[]]]].
    + gap_at [(0 :: p, Tok f)] (eq_refl [a]). apply Go; [exact He|]. rewrite Nv in Hf. left. rewrite Hf. reflexivity.
    + gap_at [(0 :: p, Tok f); (1 :: p, Tok a)] Ev. apply Go; [exact He|]. rewrite Nv in Hf. left. rewrite Hf. reflexivity.
    + gap_at [(0 :: p, Tok f); (1 :: p, Tok a); (2 :: p, v0)] (eq_refl [z]).
      apply Go; [exact He|]. right. rewrite Hn, (tok_kind _ _ _ Tz). reflexivity.
  - intros Cl. destruct (body_at rf s _ _ _ _ Rb Ab) as (h & q' & g' & m & Pb' & -> & B1 & B2).
    gap_at [(0 :: p, Tok f); (1 :: p, Tok a); (2 :: p, v0); (3 :: p, Tok z)] Eb.
    unfold goes. rewrite (ruled_place s R_WHILE_STATEMENT dd) by (rewrite ?He; auto).
    cbn [handlers]. unfold handle_while. rewrite He, Kn, Fb, Hf, Hn, Nb. cbn [is_path]. rewrite path_eqb_refl, (not_paren _ Kb), Pb'. reflexivity.
Qed.

Theorem repeat_placed p g t0 n b : reads pl p g t0 (ERepeat n b) -> at_path s p = Some t0 -> reach s p g t0 ->
  gap_clean src t (g + 1) -> holds false (body_notes b) (all_comments (gap_comments src t (g + 1))).
Proof.
  intros R A Rc Cl.
  inversion R as [| | | | | | | | | | | | | | |? ? k f b0 ? Fk Tf Rb Sb| | | | | | | | |]; subst.
  apply form_repeat in Fk as ->.
  set (cs := [Tok f; b0]) in *.
  destruct (expr_child 1 p _ b0 b _ cs A eq_refl Rb Sb) as (Pb & Nb & Fb & Ab & yb & rb & Eb & Kb).
  assert (K : kids p cs = [(0 :: p, Tok f); (1 :: p, b0)]).
  { unfold kids, cs. cbn [kids_from]. rewrite (spread_plain _ _ Pb). reflexivity. }
  pose proof (node_is _ _ _ A) as Kn.
  destruct (body_at rf s _ _ _ _ Rb Ab) as (h & q' & g' & m & Pb' & -> & B1 & B2).
  gap_at [(0 :: p, Tok f)] Eb.
  unfold goes. rewrite (ruled_place s R_REPEAT_STATEMENT dd) by (rewrite ?He; auto).
  cbn [handlers]. unfold handle_repeat. rewrite He, Kn, Fb, Pb'. reflexivity.
Qed.

Theorem function_placed p g t0 n kw ps b : reads pl p g t0 (EFunction n kw ps b) -> at_path s p = Some t0 -> reach s p g t0 ->
  (gap_clean src t (g + 1) -> holds true (n_lead n) (all_comments (gap_comments src t (g + 1)))) /\
  (gap_clean src t (g + 1 + wide [ps]) ->
     holds false (body_notes b) (all_comments (gap_comments src t (g + 1 + wide [ps])))).
Proof.
  intros R A Rc.
  inversion R as [| | | | |? ? k f v0 ? b0 ? Fk Rv Sv Rb Sb| | | | | | | | | | | | | | | | | | |]; subst.
  apply form_function in Fk as ->.
  set (cs := [Tok f; v0; b0]) in *.
  destruct (expr_child 2 p _ b0 b _ cs A eq_refl Rb Sb) as (Pb & Nb & Fb & Ab & yb & rb & Eb & Kb).
  assert (Kp : exists a1 l1 z1, v0 = Node R_PARAMETERS [Tok a1; Node R_PARAMETER_LIST l1; Tok z1]).
  { inversion Rv; subst; try discriminate Sv; match goal with H : form_of ?k = FoParams |- _ => apply form_params in H as -> end; eauto. }
  destruct Kp as (a1 & l1 & z1 & Ev0).
  assert (Nv : is_node v0 = true) by (rewrite Ev0; reflexivity).
  assert (Pv : plain v0) by (rewrite Ev0; reflexivity).
  assert (Ev : syn_tokens v0 = a1 :: flat_map syn_tokens [Node R_PARAMETER_LIST l1; Tok z1]) by (rewrite Ev0; reflexivity).
  assert (Fv : field_of_kind s R_PARAMETERS 1 p = Some (1 :: p)).
  { unfold field_of_kind, is_kind, node_kind. rewrite (at_child s p _ cs 1 _ A eq_refl), Ev0. reflexivity. }
  assert (K : kids p cs = [(0 :: p, Tok f); (1 :: p, v0); (2 :: p, b0)]).
  { unfold kids, cs. cbn [kids_from]. rewrite (spread_plain _ _ Pv), (spread_plain _ _ Pb). reflexivity. }
  assert (Wn : List.length (syn_tokens (Node R_FUNCTION_DEFINITION cs)) = 1 + width v0 + width b0).
  { unfold cs. cbn [syn_tokens flat_map]. rewrite !app_length. unfold width. cbn [List.length]. lia. }
  assert (Wb : 1 <= width b0) by (unfold width; rewrite Eb; cbn; lia).
  rewrite (wide_one _ _ _ _ _ Rv). pose proof (node_is _ _ _ A) as Kn.
  split.
  - intros Cl. cbn [note n_lead]. gap_at [(0 :: p, Tok f)] Ev.
    unfold goes. rewrite (ruled_place s R_FUNCTION_DEFINITION dd) by (rewrite ?He; auto).
    cbn [handlers]. unfold handle_function. rewrite He, Kn, Fv, Hf, Nv. cbn [is_path]. rewrite path_eqb_refl. reflexivity.
  - intros Cl. destruct (body_at rf s _ _ _ _ Rb Ab) as (h & q' & g' & m & Pb' & -> & B1 & B2).
    gap_at [(0 :: p, Tok f); (1 :: p, v0)] Eb.
    unfold goes. rewrite (ruled_place s R_FUNCTION_DEFINITION dd) by (rewrite ?He; auto).
    cbn [handlers]. unfold handle_function. rewrite He, Kn, Fv, Fb, Hf, Nb. cbn [is_path path_eqb Nat.eqb andb]. rewrite path_eqb_refl, Pb'. reflexivity.
Qed.

Theorem else_placed p g t0 n nl a : reads pl p g t0 (EElse n nl a) -> at_path s p = Some t0 -> reach s p g t0 ->
  gap_clean src t (g + 1) -> holds false (alternative_notes a) (all_comments (gap_comments src t (g + 1))).
Proof.
  intros R A Rc Cl.
  inversion R as [| | | | | | | | | | | |? ? k f b0 ? Fk Tf Rb Sb| | | | | | | | | | | |]; subst.
  apply form_else in Fk as ->.
  set (cs := [Tok f; b0]) in *.
  destruct (expr_child 1 p _ b0 a _ cs A eq_refl Rb Sb) as (Pb & Nb & Fb & Ab & yb & rb & Eb & Kb).
  assert (K : kids p cs = [(0 :: p, Tok f); (1 :: p, b0)]).
  { unfold kids, cs. cbn [kids_from]. rewrite (spread_plain _ _ Pb). reflexivity. }
  pose proof (node_is _ _ _ A) as Kn.
  destruct (alternative_at rf s _ _ _ _ Rb Sb Ab) as (h & q' & g' & m & Pb' & -> & B1 & B2).
  gap_at [(0 :: p, Tok f)] Eb.
  unfold goes. rewrite (ruled_place s R_ELSE_CLAUSE dd) by (rewrite ?He; auto).
  cbn [handlers]. unfold handle_else. rewrite He, Kn, Fb, Hf, Nb. cbn [is_path]. rewrite path_eqb_refl, Pb'. reflexivity.
Qed.
Lemma body_below b h q : place_body s b = (h, q) -> exists u, q = u ++ b.
Proof.
  unfold place_body, first_expression. destruct (is_kind s R_BRACED_EXPRESSIONS b); [|intros E; injection E as _ <-; exists []; reflexivity].
  destruct (is_kind s R_EXPRESSION_LIST (1 :: b)); [|intros E; injection E as _ <-; exists []; reflexivity].
  destruct (expression_field s 0 (1 :: b)) as [f|] eqn:Q; intros E; injection E as _ <-; [|exists []; reflexivity].
  apply expression_field_is in Q as ->. exists [0; 1]. reflexivity.
Qed.
Lemma alternative_below b h q : place_alternative s b = Some (h, q) -> exists u, q = u ++ b.
Proof.
  unfold place_alternative. destruct (is_kind s R_IF_STATEMENT b).
  - destruct (expression_field s 4 b) as [f|] eqn:Q; [|discriminate]. intros E. injection E as E.
    apply expression_field_is in Q as ->. apply body_below in E as [u ->]. exists (u ++ [4]). rewrite <- app_assoc. reflexivity.
  - intros E. injection E as E. exact (body_below _ _ _ E).
Qed.
Lemma apart (u v p : path) i j : i <> j -> u ++ i :: p <> v ++ j :: p.
Proof.
  intros N E. apply (f_equal (@rev nat)) in E. rewrite !rev_app_distr in E. cbn [rev] in E. rewrite <- !app_assoc in E.
  apply app_inv_head in E. cbn in E. congruence.
Qed.

Theorem if_placed p g t0 n c th el : reads pl p g t0 (EIf n c th el) -> at_path s p = Some t0 -> reach s p g t0 ->
  (forall d, In d [1; 2] -> gap_clean src t (g + d) ->
     holds false (n_lead (notes_of c)) (all_comments (gap_comments src t (g + d)))) /\
  (gap_clean src t (g + 2 + wide [c]) ->
     holds false (n_trail (notes_of c)) (all_comments (gap_comments src t (g + 2 + wide [c])))) /\
  (gap_clean src t (g + 3 + wide [c]) ->
     holds false (body_notes th) (all_comments (gap_comments src t (g + 3 + wide [c])))) /\
  (forall n' nl a, el = Some (EElse n' nl a) -> gap_clean src t (g + 3 + wide [c; th]) ->
     holds false (body_notes th) (end_of_line (gap_comments src t (g + 3 + wide [c; th]))) /\
     holds false (alternative_notes a) (own_line (gap_comments src t (g + 3 + wide [c; th])))).
Proof.
  intros R A Rc.
  assert (Shape : exists i a c0 z t1 er, t0 = Node R_IF_STATEMENT ([Tok i; Tok a; c0; Tok z; t1] ++ er) /\
    token_of z = tRPAREN /\ reads pl (2 :: p) (g + 2) c0 c /\ sort_of c = SoExpr /\
    reads pl (4 :: p) (g + 3 + width c0) t1 th /\ sort_of th = SoExpr /\
    match el with
    | None => er = []
    | Some e => exists e0, er = [e0] /\ reads pl (5 :: p) (g + 3 + width c0 + width t1) e0 e /\ sort_of e = SoElse
    end).
  { inversion R as [| | | | | | | | | |? ? k i a c0 ? z t1 ? Fk Ti Ta Tz Rv Sv Rb Sb|? ? k i a c0 ? z t1 ? e0 e' Fk Ti Ta Tz Rv Sv Rb Sb Re Se| | | | | | | | | | | | |]; subst;
      apply form_if in Fk as ->.
    - exists i, a, c0, z, t1, []. auto 10.
    - exists i, a, c0, z, t1, [e0]. do 6 (split; [auto; fail|]). exists e0. auto. }
  destruct Shape as (f & a & v0 & z & b0 & er & -> & Tz & Rv & Sv & Rb & Sb & Sh). clear R.
  set (cs := [Tok f; Tok a; v0; Tok z; b0] ++ er) in *.
  destruct (expr_child 2 p _ v0 c _ cs A eq_refl Rv Sv) as (Pv & Nv & Fv & Av & yv & rv & Ev & Kv).
  destruct (expr_child 4 p _ b0 th _ cs A eq_refl Rb Sb) as (Pb & Nb & Fb & Ab & yb & rb & Eb & Kb).
  assert (K : exists ek, kids p cs = [(0 :: p, Tok f); (1 :: p, Tok a); (2 :: p, v0); (3 :: p, Tok z); (4 :: p, b0)] ++ ek /\
    ek = kids_from p 5 er).
  { eexists. split; [|reflexivity]. unfold kids, cs. cbn [kids_from app]. rewrite (spread_plain _ _ Pv), (spread_plain _ _ Pb). reflexivity. }
  destruct K as (ek & K & Ek). cbn [app] in K.
  rewrite (wide_one _ _ _ _ _ Rv), (wide_two _ _ _ _ _ _ _ _ _ Rv Rb). pose proof (node_is _ _ _ A) as Kn.
  split; [|split; [|split]].
  - intros d I Cl. rewrite (notes_read _ _ _ _ _ Rv). cbn [note n_lead].
    assert (Go : forall dd, d_enclosing dd = p -> d_preceding dd = None -> d_following dd = Some (2 :: p) ->
      goes s dd = (Leading, 2 :: p)).
    { intros dd E E1 E2. unfold goes. rewrite (ruled_place s R_IF_STATEMENT dd) by (rewrite ?E; auto).
      cbn [handlers]. unfold handle_if, handle_hole. rewrite E, Kn, Fv, Fb, E1, E2. cbn [is_path andb path_eqb Nat.eqb].
      unfold default_place. rewrite E1, E2.
      destruct (field_of_kind s R_ELSE_CLAUSE 5 p) as [x|] eqn:Q; [apply field_of_kind_is in Q as ->|];
        [destruct (expression_field s 1 (5 :: p))|]; cbn; destruct (d_own dd); reflexivity. }
    cbn [In] in I. destruct I as [<-|[<-|[]]].
    + gap_at [(0 :: p, Tok f)] (eq_refl [a]). apply Go; [exact He|exact Hp|]. rewrite Nv in Hf. exact Hf.
    + gap_at [(0 :: p, Tok f); (1 :: p, Tok a)] Ev. apply Go; [exact He|exact Hp|]. rewrite Nv in Hf. exact Hf.
  - intros Cl. rewrite (notes_read _ _ _ _ _ Rv). cbn [note n_trail].
    gap_at [(0 :: p, Tok f); (1 :: p, Tok a); (2 :: p, v0)] (eq_refl [z]).
    unfold goes. rewrite (ruled_place s R_IF_STATEMENT dd) by (rewrite ?He; auto).
    cbn [handlers]. unfold handle_if. rewrite He, Kn, Fv, Fb, Hp, Hn, Nv, (tok_kind _ _ _ Tz). cbn [is_path]. rewrite path_eqb_refl. reflexivity.
  - intros Cl. destruct (body_at rf s _ _ _ _ Rb Ab) as (h & q' & g' & m & Pb' & -> & B1 & B2).
    gap_at [(0 :: p, Tok f); (1 :: p, Tok a); (2 :: p, v0); (3 :: p, Tok z)] Eb.
    unfold goes. rewrite (ruled_place s R_IF_STATEMENT dd) by (rewrite ?He; auto).
    cbn [handlers]. unfold handle_if. rewrite He, Kn, Fv, Fb, Hf, Hn, Nb. cbn [is_path is_next]. rewrite path_eqb_refl, (not_paren _ Kb), andb_false_r, Pb'. reflexivity.
  - intros n' nl al El Cl. rewrite El in Sh. destruct Sh as (e0 & -> & Re & _).
    assert (Ae : at_path s (5 :: p) = Some e0) by exact (at_child s p _ cs 5 _ A eq_refl).
    pose proof (reads_plain _ _ _ _ _ Re) as Pe.
    inversion Re as [| | | | | | | | | | | |? ? k qe a0 ? Fk Tq Ra Sa| | | | | | | | | | | |]; subst.
    apply form_else in Fk as ->.
    destruct (expr_child 1 (5 :: p) _ a0 al _ _ Ae eq_refl Ra Sa) as (Pa & Na & Fa & Aa & ya & ra & Ea & Ka).
    destruct (body_at rf s _ _ _ _ Rb Ab) as (h & q' & g' & m & Pb' & -> & B1 & B2).
    destruct (alternative_at rf s _ _ _ _ Ra Sa Aa) as (h2 & q2 & g2 & m2 & Pa' & -> & B3 & B4).
    assert (Ne : q2 <> q').
    { destruct (alternative_below _ _ _ Pa') as [u ->]. destruct (body_below _ _ _ Pb') as [v ->].
      change (u ++ [1] ++ 5 :: p <> v ++ 4 :: p). rewrite app_assoc. apply apart. discriminate. }
    assert (Fe : field_of_kind s R_ELSE_CLAUSE 5 p = Some (5 :: p)).
    { unfold field_of_kind. rewrite (node_is _ _ _ Ae). reflexivity. }
    cbn [kids_from] in K. rewrite (spread_plain _ _ Pe) in K. cbn [app] in K.
    destruct (gap_own src t rf s AF p g _ cs [(0 :: p, Tok f); (1 :: p, Tok a); (2 :: p, v0); (3 :: p, Tok z); (4 :: p, b0)]
      (5 :: p, Node R_ELSE_CLAUSE [Tok qe; a0]) [] _ _ Rc eq_refl K eq_refl) with (G := g + 3 + (width v0 + width b0)) (h1 := h2) (q1 := q2) (h2 := h) (q2 := q')
      as [G1 G2]; [span|span|exact Cl|exact Ne| |].
    + intros dd Hh. open_gap Hh. rewrite Nb in Hp.
      unfold goes. rewrite (ruled_place s R_IF_STATEMENT dd) by (rewrite ?He; auto).
      cbn [handlers]. unfold handle_if. rewrite He, Kn, Fv, Fb, Fe, Fa, Hf, Hp. cbn [is_path path_eqb Nat.eqb andb].
      rewrite path_eqb_refl, Pa', Pb'. destruct (d_own dd); reflexivity.
    + split; [apply G2|apply G1]; within.
Qed.
End Statements.

(** * The theorems *)

Section Theorems.
Variables (rf : bool) (src : text) (t : ts) (r : root).
Hypothesis W : well_parsed src t.
Hypothesis Cf : conforms t = true.
Hypothesis F : source_root rf src t = Some r.

Theorem bodies_hold G b : before_body r G b -> gap_clean src t G ->
  holds false (body_notes b) (all_comments (gap_comments src t G)).
Proof.
  destruct (source_site rf src t r W Cf F) as (s & _ & AF & Co & Site).
  intros [g n v se b0 I|g n c b0 I|g n b0 I|g n k ps b0 I|g n c th el I]; destruct (Site _ _ I Logic.I) as (p & t0 & R & A & Rc).
  - exact (proj2 (for_placed src t rf s AF Co _ _ _ _ _ _ _ R A Rc)).
  - exact (proj2 (while_placed src t rf s AF Co _ _ _ _ _ _ R A Rc)).
  - exact (repeat_placed src t rf s AF Co _ _ _ _ _ R A Rc).
  - exact (proj2 (function_placed src t rf s AF Co _ _ _ _ _ _ _ R A Rc)).
  - exact (proj1 (proj2 (proj2 (if_placed src t rf s AF Co _ _ _ _ _ _ _ R A Rc)))).
Qed.
Theorem headers_hold G e : in_header r G e -> gap_clean src t G ->
  holds true (n_lead (notes_of e)) (all_comments (gap_comments src t G)).
Proof.
  destruct (source_site rf src t r W Cf F) as (s & _ & AF & Co & Site).
  intros [g n v se b0 d I D|g n c b0 d I D|g n k ps b0 I]; destruct (Site _ _ I Logic.I) as (p & t0 & R & A & Rc); cbn [notes_of].
  - exact (proj1 (for_placed src t rf s AF Co _ _ _ _ _ _ _ R A Rc) d D).
  - exact (proj1 (while_placed src t rf s AF Co _ _ _ _ _ _ R A Rc) d D).
  - exact (proj1 (function_placed src t rf s AF Co _ _ _ _ _ _ _ R A Rc)).
Qed.
Theorem conditions_hold g n c th el : In (g, EIf n c th el) (root_nodes r) ->
  (forall d, In d [1; 2] -> gap_clean src t (g + d) ->
     holds false (n_lead (notes_of c)) (all_comments (gap_comments src t (g + d)))) /\
  (gap_clean src t (g + 2 + wide [c]) ->
     holds false (n_trail (notes_of c)) (all_comments (gap_comments src t (g + 2 + wide [c])))).
Proof.
  destruct (source_site rf src t r W Cf F) as (s & _ & AF & Co & Site).
  intros I. destruct (Site _ _ I Logic.I) as (p & t0 & R & A & Rc).
  destruct (if_placed src t rf s AF Co _ _ _ _ _ _ _ R A Rc) as (H1 & H2 & _). split; assumption.
Qed.
Theorem before_else_holds g n c th n' nl a : In (g, EIf n c th (Some (EElse n' nl a))) (root_nodes r) ->
  gap_clean src t (g + 3 + wide [c; th]) ->
  holds false (body_notes th) (end_of_line (gap_comments src t (g + 3 + wide [c; th]))) /\
  holds false (alternative_notes a) (own_line (gap_comments src t (g + 3 + wide [c; th]))).
Proof.
  destruct (source_site rf src t r W Cf F) as (s & _ & AF & Co & Site).
  intros I. destruct (Site _ _ I Logic.I) as (p & t0 & R & A & Rc).
  destruct (if_placed src t rf s AF Co _ _ _ _ _ _ _ R A Rc) as (_ & _ & _ & H4). exact (H4 _ _ _ eq_refl).
Qed.
Theorem after_else_holds g n nl a : In (g, EElse n nl a) (root_nodes r) -> gap_clean src t (g + 1) ->
  holds false (alternative_notes a) (all_comments (gap_comments src t (g + 1))).
Proof.
  destruct (source_site rf src t r W Cf F) as (s & _ & AF & Co & Site).
  intros I. destruct (Site _ _ I Logic.I) as (p & t0 & R & A & Rc).
  exact (else_placed src t rf s AF Co _ _ _ _ _ _ R A Rc).
Qed.
End Theorems.
