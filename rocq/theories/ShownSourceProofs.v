(** Comments of the source, in the output. *)
From Coq Require Import List Arith Bool NArith Lia.
From Verif Require Import Text SettingsModel SyntaxKind ParseModel ParseSpec DirectiveModel FmtTree IrModel TableModel
  FmtModel FmtSpec FmtPathSpec CommentsModel AstModel FrontProofs FactorySpec SourceSpec PlaceSpec FmtTidyProofs
  DressSpec PlaceSourceProofs BodySpec BodyProofs BesideSpec BesideProofs ShownSpec ShownProofs.
Import ListNotations.

Section Source.
Variable o : format_options.
Variable pc : doc -> option (list piece).
Hypothesis Cp : cell_printer pc.
Variables (rf : bool) (src : text) (t : ts) (r : root).
Hypothesis W : well_parsed src t.
Hypothesis C : conforms t = true.
Hypothesis F : source_root rf src t = Some r.
Variable out : list piece.
Hypothesis P : prints (root_doc o pc r) out.

Theorem source_above w p e l : laid_out o r p e -> BodySpec.holds w (n_lead (notes_of e)) l -> l <> [] ->
  w = false \/ ~ skip_asked o p e -> shown_above o p e l out.
Proof. intros La H N Q. exact (laid_above o pc Cp r p e w l out (source_front_shaped rf src t r F) La H N Q P). Qed.
Theorem source_behind w p e l : laid_out o r p e -> BodySpec.holds w (n_trail (notes_of e)) l -> l <> [] ->
  w = false \/ ~ skip_asked o p e -> shown_behind o p e l out.
Proof. intros La H N Q. exact (laid_behind o pc Cp r p e w l out (source_front_shaped rf src t r F) La H N Q P). Qed.
Theorem source_inside w p e n a b l : in_file o r p e -> ~ skip_asked o p e ->
  (exists k rc, e = EArgs n k rc [] /\ a = l_token k /\ b = r_token k) \/ (e = EParams n [] /\ a = tLPAREN /\ b = tRPAREN) \/
  (e = EBraced n [] /\ a = tLCURLY /\ b = tRCURLY) ->
  BodySpec.holds w (n_dang n) l -> shown_inside a b l out.
Proof.
  intros If Ns K (x & y & z & E & <- & _).
  destruct (inside_shown o pc r p e n a b out (source_front_shaped rf src t r F) If Ns K P) as (pre & h & post & Eo & T & A).
  exists pre, h, post. split; [exact Eo|]. split; [exact T|]. refine (among_trans _ _ A _ _).
  rewrite E, !map_app. apply among_front, among_back, among_refl.
Qed.

Theorem beside_shown G left right : beside r G left right -> gap_clean src t G ->
  shared_shown o r left right (gap_comments src t G) out.
Proof.
  intros B Cl. pose proof (beside_holds rf src t r W C F G left right B Cl) as H.
  unfold shared_shown, shared in *. cbv zeta. destruct left as [x|], right as [y|]; [|intros p La N|intros p La N|exact H].
  - destruct H as [H1 H2]. split; intros p La N.
    + exact (source_behind false p x _ La H1 N (or_introl eq_refl)).
    + exact (source_above false p y _ La H2 N (or_introl eq_refl)).
  - exact (source_behind false p x _ La H N (or_introl eq_refl)).
  - exact (source_above false p y _ La H N (or_introl eq_refl)).
Qed.
Theorem holes_shown g n k rc a h b : In (g, EArgs n k rc (a ++ h :: b)) (root_nodes r) -> BesideSpec.hole h = true ->
  gap_clean src t (g + 1 + wide a + List.length a) ->
  hole_shown o r a h (all_comments (gap_comments src t (g + 1 + wide a + List.length a))) out.
Proof.
  intros I Hh Cl. pose proof (holes_hold rf src t r W C F g n k rc a h b I Hh Cl) as H.
  unfold hole_shown, hole_notes in *. cbv zeta. destruct (last_of a) as [x|].
  - destruct (BesideSpec.hole x); intros La N;
      [exact (source_above false _ h _ La H N (or_introl eq_refl))|exact (source_behind false _ x _ La H N (or_introl eq_refl))].
  - intros La N. exact (source_above false _ h _ La H N (or_introl eq_refl)).
Qed.
Lemma start_of b l : BodySpec.holds false (body_notes b) l -> start_shown o r b l out.
Proof.
  intros H. destruct b; try (intros p La N; exact (source_above false p _ l La H N (or_introl eq_refl))).
  destruct es as [|e es]; cbn [start_shown body_notes] in *.
  - intros p If Ns. refine (source_inside false p (EBraced n []) n _ _ l If Ns _ H). right. right. auto.
  - intros p La N; exact (source_above false p _ l La H N (or_introl eq_refl)).
Qed.
Lemma alternative_of a l : BodySpec.holds false (alternative_notes a) l -> alternative_shown o r a l out.
Proof. intros H. unfold alternative_shown. destruct a; apply start_of, H. Qed.
Theorem behind_holes_shown g n k rc a h e b : In (g, EArgs n k rc (a ++ h :: e :: b)) (root_nodes r) ->
  BesideSpec.hole h = true -> BesideSpec.hole e = false -> gap_clean src t (g + 2 + wide a + List.length a) ->
  let l := all_comments (gap_comments src t (g + 2 + wide a + List.length a)) in
  forall p, laid_out o r p e -> l <> [] -> shown_above o p e l out.
Proof.
  intros I H1 H2 Cl l p La N.
  exact (source_above false p e l La (behind_holes_hold rf src t r W C F g n k rc a h e b I H1 H2 Cl) N (or_introl eq_refl)).
Qed.
Theorem names_shown g n x y k : In (g, EArg n (Some x) (Some y) k) (root_nodes r) -> gap_clean src t (g + wide [x]) ->
  let l := all_comments (gap_comments src t (g + wide [x])) in
  forall p, laid_out o r p x -> l <> [] -> shown_above o p x l out.
Proof.
  intros I Cl l p La N.
  exact (source_above false p x l La (names_hold rf src t r W C F g n x y k I Cl) N (or_introl eq_refl)).
Qed.
Theorem clauses_shown g n x : In (g, ENameClause n x) (root_nodes r) -> gap_clean src t (g + wide [x]) ->
  let l := all_comments (gap_comments src t (g + wide [x])) in
  forall p, laid_out o r p x -> l <> [] -> shown_above o p x l out.
Proof.
  intros I Cl l p La N.
  exact (source_above false p x l La (clauses_hold rf src t r W C F g n x I Cl) N (or_introl eq_refl)).
Qed.
Theorem empty_arguments_shown g n k rc p : In (g, EArgs n k rc []) (root_nodes r) -> gap_clean src t (g + 1) ->
  in_file o r p (EArgs n k rc []) -> ~ skip_asked o p (EArgs n k rc []) ->
  shown_inside (l_token k) (r_token k) (all_comments (gap_comments src t (g + 1))) out.
Proof.
  intros I Cl If Ns. refine (source_inside true p _ n _ _ _ If Ns _ (empty_holds rf src t r W C F g n _ I _ Cl)).
  - left. exists k, rc. auto.
  - left. exists k, rc. reflexivity.
Qed.
Theorem empty_parameters_shown g n p : In (g, EParams n []) (root_nodes r) -> gap_clean src t (g + 1) ->
  in_file o r p (EParams n []) -> ~ skip_asked o p (EParams n []) ->
  shown_inside tLPAREN tRPAREN (all_comments (gap_comments src t (g + 1))) out.
Proof.
  intros I Cl If Ns. refine (source_inside true p _ n _ _ _ If Ns _ (empty_holds rf src t r W C F g n _ I _ Cl)).
  - right. left. auto.
  - right. reflexivity.
Qed.
Theorem starts_shown G b : before_body r G b -> gap_clean src t G ->
  start_shown o r b (all_comments (gap_comments src t G)) out.
Proof. intros B Cl. exact (start_of b _ (bodies_hold rf src t r W C F G b B Cl)). Qed.
Theorem all_headers_shown G e p : in_header r G e -> gap_clean src t G -> laid_out o r p e -> ~ skip_asked o p e ->
  all_comments (gap_comments src t G) <> [] -> shown_above o p e (all_comments (gap_comments src t G)) out.
Proof. intros H Cl La Ns N. exact (source_above true p e _ La (headers_hold rf src t r W C F G e H Cl) N (or_intror Ns)). Qed.
Theorem conditions_shown g n c th el p : In (g, EIf n c th el) (root_nodes r) -> laid_out o r p c ->
  (forall d, In d [1; 2] -> gap_clean src t (g + d) -> all_comments (gap_comments src t (g + d)) <> [] ->
     shown_above o p c (all_comments (gap_comments src t (g + d))) out) /\
  (gap_clean src t (g + 2 + wide [c]) -> all_comments (gap_comments src t (g + 2 + wide [c])) <> [] ->
     shown_behind o p c (all_comments (gap_comments src t (g + 2 + wide [c]))) out).
Proof.
  intros I La. destruct (conditions_hold rf src t r W C F g n c th el I) as [H1 H2]. split.
  - intros d D Cl N. exact (source_above false p c _ La (H1 d D Cl) N (or_introl eq_refl)).
  - intros Cl N. exact (source_behind false p c _ La (H2 Cl) N (or_introl eq_refl)).
Qed.
Theorem before_else_shown g n c th n' nl a : In (g, EIf n c th (Some (EElse n' nl a))) (root_nodes r) ->
  gap_clean src t (g + 3 + wide [c; th]) ->
  start_shown o r th (end_of_line (gap_comments src t (g + 3 + wide [c; th]))) out /\
  alternative_shown o r a (own_line (gap_comments src t (g + 3 + wide [c; th]))) out.
Proof.
  intros I Cl. destruct (before_else_holds rf src t r W C F g n c th n' nl a I Cl) as [H1 H2].
  split; [exact (start_of _ _ H1)|exact (alternative_of _ _ H2)].
Qed.
Theorem after_else_shown g n nl a : In (g, EElse n nl a) (root_nodes r) -> gap_clean src t (g + 1) ->
  alternative_shown o r a (all_comments (gap_comments src t (g + 1))) out.
Proof. intros I Cl. exact (alternative_of _ _ (after_else_holds rf src t r W C F g n nl a I Cl)). Qed.
Theorem parens_shown g n b p : In (g, EParen n b) (root_nodes r) -> laid_out o r p b ->
  (gap_clean src t (g + 1) -> all_comments (gap_comments src t (g + 1)) <> [] ->
     shown_above o p b (all_comments (gap_comments src t (g + 1))) out) /\
  (gap_clean src t (g + 1 + wide [b]) -> all_comments (gap_comments src t (g + 1 + wide [b])) <> [] ->
     shown_behind o p b (all_comments (gap_comments src t (g + 1 + wide [b]))) out).
Proof.
  intros I La. split; intros Cl N.
  - destruct (paren_leading_holds rf src t r W F g n b I Cl) as (y & z & E & M & A & _).
    refine (source_above false p b _ La _ N (or_introl eq_refl)). exists [], y, z. auto.
  - destruct (paren_trailing_holds rf src t r W F g n b I Cl) as (M & A).
    refine (source_behind false p b _ La _ N (or_introl eq_refl)). exists [], (n_trail (notes_of b)), [].
    rewrite app_nil_r. auto.
Qed.
Theorem empty_braces_shown g n p : In (g, EBraced n []) (root_nodes r) -> gap_clean src t (g + 1) ->
  in_file o r p (EBraced n []) -> ~ skip_asked o p (EBraced n []) ->
  shown_inside tLCURLY tRCURLY (all_comments (gap_comments src t (g + 1))) out.
Proof.
  intros I Cl If Ns. destruct (empty_braces_hold rf src t r W F g n I Cl) as (x & y & z & E & M).
  destruct (inside_shown o pc r p _ n tLCURLY tRCURLY out (source_front_shaped rf src t r F) If Ns (or_intror (or_intror (conj eq_refl (conj eq_refl eq_refl)))) P)
    as (pre & h & post & Eo & T & A).
  exists pre, h, post. split; [exact Eo|]. split; [exact T|]. refine (among_trans _ _ A _ _).
  rewrite E, !map_app, M. apply among_front, among_back, among_refl.
Qed.
End Source.
