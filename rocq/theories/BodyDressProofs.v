(** The comments of headers in the output. *)
From Coq Require Import List Arith Bool NArith Lia.
From Verif Require Import Text SettingsModel SyntaxKind ParseModel ParseSpec DirectiveModel FmtTree IrModel
  TableModel FmtModel FmtSpec FmtPathSpec CommentsModel AstModel FrontProofs FactorySpec SourceSpec PlaceSpec
  FmtRunProofs DressSpec FmtEdgeProofs FmtBlankProofs DressProofs PlaceSourceProofs PlaceDressProofs BodySpec BodyProofs.
Import ListNotations.

Section Shown.
Variable o : format_options.

(** Comments of a statement stand above it. *)
Lemma held_shown eff e blk w l : shows_dressed o eff e blk -> holds w (n_lead (notes_of e)) l ->
  w = false \/ ~ skip_asked o (p_stmt eff) e ->
  exists hx h core, blk = hx ++ h ++ core /\ line_start hx /\ ptokens hx = [] /\ heads l h /\
    block core /\ shows_tokens o (p_stmt eff) [e] core.
Proof.
  intros [[e' [Ti [Tk _]]] (lead & trail & core & D & Bc & -> & _)] (x & y & z & El & Ey & Fy) Q.
  assert (L : exists x' z', lead = x' ++ y ++ z').
  { destruct D as [[-> _]|[Sk [-> _]]]; [exists x, z; exact El|]. destruct Q as [->|Q]; [|contradiction].
    exists (outer x), (outer z). rewrite El. unfold outer. rewrite !filter_app. fold (outer y).
    rewrite (outer_in y Fy). reflexivity. }
  destruct L as (x' & z' & ->).
  pose proof (above_heads x') as Hx. pose proof (above_heads y) as Hy. rewrite Ey in Hy.
  exists (above x' []), (above y []), (above z' core).
  rewrite !above_split. split; [reflexivity|]. split; [apply above_start|].
  split; [exact (heads_tokens _ _ Hx)|]. split; [exact Hy|]. split.
  - destruct Bc as [[w0 [rr ->]] [r2 [w2 E2]]]. split.
    + destruct z' as [|c z']; [eexists _, _; reflexivity|cbn [above]; eexists _, _; reflexivity].
    + rewrite above_app, E2, app_assoc. eexists _, _. reflexivity.
  - exists [e']. split; [repeat constructor; exact Ti|]. cbn [flat_map]. rewrite app_nil_r, <- Tk.
    rewrite !above_split, !ptokens_app, (heads_tokens _ _ Hx), (heads_tokens _ _ Hy). reflexivity.
Qed.

Variable pc : doc -> option (list piece).
Hypothesis Cp : cell_printer pc.
Variables (rf : bool) (src : text) (t : ts) (r : root).
Hypothesis W : well_parsed src t.
Hypothesis F : source_root rf src t = Some r.

Lemma file_shown a e b w l out : r_exprs r = a ++ e :: b -> holds w (n_lead (notes_of e)) l ->
  w = false \/ ~ skip_asked o (p_stmt true) e -> prints (root_doc o pc r) out ->
  exists pre h core post, out = pre ++ h ++ core ++ post /\ line_start pre /\ line_end post /\
    shows_tokens o (p_stmt true) a pre /\ heads l h /\ block core /\ shows_tokens o (p_stmt true) [e] core.
Proof.
  intros E Hl Q P.
  assert (Ne : r_exprs r <> []) by (rewrite E; destruct a; discriminate).
  destruct (root_bare rf src t r W F Ne) as (N1 & N2 & N3 & N4).
  destruct (root_dressed o pc Cp r out (source_front_shaped rf src t r F) Ne N1 N2 N3 P) as (body & S & Eo).
  rewrite N4 in Eo. cbn [app] in Eo. rewrite E in S.
  destruct (spaced_split _ _ _ _ _ _ S) as (pre & blk & post & -> & B & Sh & Ls & Le & bs & F2 & Tk).
  destruct (held_shown true e blk w l Sh Hl Q) as (hx & h & core & -> & Lx & Tx & D).
  exists (pre ++ hx), h, core, (post ++ [PNewline]). split; [rewrite Eo, <- !app_assoc; reflexivity|].
  split; [apply start_app; assumption|]. split; [destruct Le as [->|[q ->]]; right; eexists; reflexivity|].
  split; [|exact D]. apply (shown_before o true a bs F2). rewrite ptokens_app, Tx, app_nil_r. exact Tk.
Qed.
Lemma braces_shown p n a e b w l out :
  in_file o r p (EBraced n (a ++ e :: b)) -> ~ skip_asked o p (EBraced n (a ++ e :: b)) ->
  ~ curly_curly (a ++ e :: b) -> holds w (n_lead (notes_of e)) l ->
  w = false \/ ~ skip_asked o (p_stmt (match b with [] => false | _ => true end)) e -> prints (root_doc o pc r) out ->
  exists start rem pre h core post rest,
    out = start ++ PWord (WTok tLCURLY) :: rem ++ PNewline :: pre ++ h ++ core ++ post ++
            PNewline :: PWord (WTok tRCURLY) :: rest /\
    Forall remark rem /\ line_start pre /\ line_end post /\
    shows_tokens o (p_stmt true) a pre /\ heads l h /\
    block core /\ shows_tokens o (p_stmt (match b with [] => false | _ => true end)) [e] core.
Proof.
  intros I Sk Cc Hl Q P.
  assert (Ne : a ++ e :: b <> []) by (destruct a; discriminate).
  destruct (braces_dressed o pc Cp r out p n _ (source_front_shaped rf src t r F) I Sk Ne Cc P)
    as (start & rem & body & rest & Eo & Fr & S).
  destruct (spaced_split _ _ _ _ _ _ S) as (pre & blk & post & -> & B & Sh & Ls & Le & bs & F2 & Tk).
  assert (Sh' : shows_dressed o (match b with [] => false | _ => true end) e blk) by (destruct b; exact Sh).
  destruct (held_shown _ e blk w l Sh' Hl Q) as (hx & h & core & -> & Lx & Tx & D).
  exists start, rem, (pre ++ hx), h, core, post, rest.
  split; [rewrite Eo, <- !app_assoc; reflexivity|]. split; [exact Fr|]. split; [apply start_app; assumption|].
  split; [exact Le|]. split; [|exact D].
  apply (shown_before o true a bs F2). rewrite ptokens_app, Tx, app_nil_r. exact Tk.
Qed.

Hypothesis Cf : conforms t = true.

Theorem bodies_shown G p n e b out : before_body r G (EBraced n (e :: b)) -> gap_clean src t G ->
  in_file o r p (EBraced n (e :: b)) -> ~ skip_asked o p (EBraced n (e :: b)) -> ~ curly_curly (e :: b) ->
  prints (root_doc o pc r) out ->
  exists start rem pre h core post rest,
    out = start ++ PWord (WTok tLCURLY) :: rem ++ PNewline :: pre ++ h ++ core ++ post ++
            PNewline :: PWord (WTok tRCURLY) :: rest /\
    Forall remark rem /\ line_start pre /\ line_end post /\ ptokens pre = [] /\
    heads (all_comments (gap_comments src t G)) h /\
    block core /\ shows_tokens o (p_stmt (match b with [] => false | _ => true end)) [e] core.
Proof.
  intros B Cl I Sk Cc P. pose proof (bodies_hold rf src t r W Cf F _ _ B Cl) as H. cbn [body_notes] in H.
  destruct (braces_shown p n [] e b false _ out I Sk Cc H (or_introl eq_refl) P)
    as (start & rem & pre & h & core & post & rest & E & R & L & L2 & (es & F2 & T) & D).
  inversion F2; subst. exists start, rem, pre, h, core, post, rest. auto 10.
Qed.
Theorem headers_shown G a e b out : r_exprs r = a ++ e :: b -> in_header r G e -> gap_clean src t G ->
  ~ skip_asked o (p_stmt true) e -> prints (root_doc o pc r) out ->
  exists pre h core post, out = pre ++ h ++ core ++ post /\ line_start pre /\ line_end post /\
    shows_tokens o (p_stmt true) a pre /\ heads (all_comments (gap_comments src t G)) h /\
    block core /\ shows_tokens o (p_stmt true) [e] core.
Proof.
  intros E H Cl Sk P.
  exact (file_shown a e b true _ out E (headers_hold rf src t r W Cf F _ _ H Cl) (or_intror Sk) P).
Qed.
Theorem inner_headers_shown G p n a e b out :
  in_file o r p (EBraced n (a ++ e :: b)) -> ~ skip_asked o p (EBraced n (a ++ e :: b)) ->
  ~ curly_curly (a ++ e :: b) -> in_header r G e -> gap_clean src t G ->
  ~ skip_asked o (p_stmt (match b with [] => false | _ => true end)) e -> prints (root_doc o pc r) out ->
  exists start rem pre h core post rest,
    out = start ++ PWord (WTok tLCURLY) :: rem ++ PNewline :: pre ++ h ++ core ++ post ++
            PNewline :: PWord (WTok tRCURLY) :: rest /\
    Forall remark rem /\ line_start pre /\ line_end post /\
    shows_tokens o (p_stmt true) a pre /\ heads (all_comments (gap_comments src t G)) h /\
    block core /\ shows_tokens o (p_stmt (match b with [] => false | _ => true end)) [e] core.
Proof.
  intros I Sk Cc H Cl Sk2 P.
  exact (braces_shown p n a e b true _ out I Sk Cc (headers_hold rf src t r W Cf F _ _ H Cl) (or_intror Sk2) P).
Qed.
End Shown.
