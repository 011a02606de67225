(** Comments of the source around the statement they belong to in the output. *)
From Coq Require Import List Arith Bool NArith Lia.
From Verif Require Import Text SettingsModel SyntaxKind ParseModel ParseSpec DirectiveModel FmtTree IrModel
  TableModel FmtModel FmtSpec FmtPathSpec CommentsModel AstModel FrontProofs SourceSpec PlaceSpec
  FmtRunProofs DressSpec FmtEdgeProofs FmtBlankProofs DressProofs PlaceSourceProofs.
Import ListNotations.

Lemma repeat_tokens k : ptokens (repeat PNewline k) = [].
Proof. induction k; auto. Qed.
Lemma heads_tokens l h : heads l h -> ptokens h = [].
Proof.
  induction 1 as [|x l b k K H IH]; [reflexivity|].
  change (ptokens (repeat PNewline k ++ b) = []). rewrite ptokens_app, repeat_tokens. exact IH.
Qed.
Lemma above_heads cs : heads (map c_text cs) (above cs []).
Proof.
  induction cs as [|c cs IH]; [constructor|]. cbn [map above].
  apply (heads_line _ _ _ (if 1 <? c_after c then 2 else 1)); [destruct (1 <? c_after c); lia|exact IH].
Qed.
Lemma above_split x y rest : above (x ++ y) rest = above x [] ++ above y rest.
Proof.
  rewrite <- above_app. induction x as [|c x IH]; [reflexivity|]. cbn [app above]. rewrite IH. reflexivity.
Qed.
Lemma above_start cs : line_start (above cs []).
Proof.
  assert (G : forall cs, cs = [] \/ exists p, above cs [] = p ++ [PNewline]).
  { clear. induction cs as [|c cs IH]; [auto|right]. cbn [above]. destruct IH as [->|[p ->]].
    - destruct (1 <? c_after c); [exists [PWord (WComment (c_text c)); PNewline]|exists [PWord (WComment (c_text c))]]; reflexivity.
    - exists (PWord (WComment (c_text c)) :: repeat PNewline (if 1 <? c_after c then 2 else 1) ++ p).
      cbn [app]. rewrite app_assoc. reflexivity. }
  destruct (G cs) as [->|H]; [left; reflexivity|right; exact H].
Qed.
Lemma start_app a b : line_start a -> line_start b -> line_start (a ++ b).
Proof.
  intros A [->|[p ->]]; [rewrite app_nil_r; exact A|]. right. exists (a ++ p). apply app_assoc.
Qed.
Lemma tracked_follows ws : forall k cs, tracked k cs ws -> follows ws (behind k cs).
Proof.
  induction ws as [|[x own] ws IH]; intros k [|c cs] H; try destruct H; [constructor|].
  destruct H0 as [E H0]. cbn [behind]. subst own x. specialize (IH _ _ H0).
  destruct (k + c_before c) as [|j]; [constructor; exact IH|].
  change (0 <? S j) with true. change (S j =? 0) with false. cbn match.
  apply follows_below; [destruct (1 <? c_before c); lia|exact IH].
Qed.
Lemma outer_in l : Forall (fun c => c_within c = false) l -> outer l = l.
Proof. induction 1 as [|c l E _ IH]; [reflexivity|]. unfold outer in *. cbn [filter]. rewrite E. cbn. rewrite IH. reflexivity. Qed.

(** One statement of several. *)
Lemma spaced_split shows cap a : forall e b out, spaced shows cap (a ++ e :: b) out ->
  exists pre blk post, out = pre ++ blk ++ post /\ block blk /\
    shows (match b with [] => true | _ => false end) e blk /\ line_start pre /\ line_end post /\
    exists bs, Forall2 (shows false) a bs /\ ptokens pre = flat_map ptokens bs.
Proof.
  induction a as [|x a IH]; intros e b out S; cbn [app] in S.
  - destruct b as [|y b]; inversion S; subst.
    + exists [], out, []. rewrite app_nil_r. split; [reflexivity|]. split; [assumption|]. split; [assumption|].
      split; [left; reflexivity|]. split; [left; reflexivity|]. exists []. split; [constructor|reflexivity].
    + exists [], b0. eexists. split; [reflexivity|]. split; [assumption|]. split; [assumption|].
      split; [left; reflexivity|]. split.
      * right. cbn [Nat.add repeat app]. eexists. reflexivity.
      * exists []. split; [constructor|reflexivity].
  - destruct (a ++ e :: b) as [|y l] eqn:El; [destruct a; discriminate El|].
    inversion S as [|? b0 ? ? out' Bb Sh Sp]; subst. rewrite <- El in Sp.
    destruct (IH e b out' Sp) as (pre & blk & post & -> & B & S' & Ls & Le & bs & F2 & T).
    exists (b0 ++ repeat PNewline (1 + Nat.min cap (n_lines (notes_of y) - 1)) ++ pre), blk, post.
    rewrite <- !app_assoc. split; [reflexivity|]. split; [exact B|]. split; [exact S'|]. split; [|split; [exact Le|]].
    + rewrite app_assoc. apply start_app; [|exact Ls]. right. replace (1 + _) with (Nat.min cap (n_lines (notes_of y) - 1) + 1) by lia.
      rewrite repeat_app. exists (b0 ++ repeat PNewline (Nat.min cap (n_lines (notes_of y) - 1))).
      rewrite <- !app_assoc. reflexivity.
    + exists (b0 :: bs). split; [constructor; auto|]. rewrite !ptokens_app, repeat_tokens, T. reflexivity.
Qed.

Section Source.
Variables (rf : bool) (src : text) (t : ts) (r : root).
Hypothesis W : well_parsed src t.
Hypothesis F : source_root rf src t = Some r.
Variable o : format_options.

Lemma statement_dressed br g a e b eff blk :
  sequence r br g (a ++ e :: b) ->
  gap_clean src t (g + wide a) -> gap_clean src t (g + wide (a ++ [e])) -> shows_dressed o eff e blk ->
  exists hx h core, blk = hx ++ h ++ core /\ line_start hx /\ ptokens hx = [] /\ (br = false \/ a <> [] -> hx = []) /\
    heads (kept_before a (gap_comments src t (g + wide a))) h /\
    block core /\ shows_tokens o (p_stmt eff) [e] core /\
    (calm e -> exists body f, block body /\ core = body ++ f /\
       follows (kept_behind b (gap_comments src t (g + wide (a ++ [e])))) f).
Proof.
  intros Sq C1 C2 [[e' [Ti [Tk _]]] (lead & trail & core & D & Bc & -> & Ca)].
  destruct (leading_holds rf src t r W F br g a e b Sq C1) as (x & y & z & El & Ey & Fy & Ex).
  destruct (tracked_trailing rf src t r W F br g a e b Sq C2) as [Tr Ft].
  assert (L : exists x' z', lead = x' ++ y ++ z' /\ (br = false \/ a <> [] -> x' = [])).
  { destruct D as [[-> _]|[_ [-> _]]].
    - exists x, z. split; [exact El|]. intros H. apply (Ex H).
    - exists (outer x), (outer z). rewrite El. unfold outer. rewrite !filter_app. fold (outer y).
      rewrite (outer_in y Fy). split; [reflexivity|]. intros H. destruct (Ex H) as [-> _]. reflexivity. }
  destruct L as (x' & z' & -> & X0).
  assert (trail = n_trail (notes_of e)) as Et.
  { destruct D as [[_ ->]|[_ [_ ->]]]; [reflexivity|apply outer_in, Ft]. }
  pose proof (above_heads x') as Hx. pose proof (above_heads y) as Hy. pose proof (above_heads z') as Hz.
  exists (above x' []), (above y []), (above z' core).
  rewrite !above_split. split; [reflexivity|]. split; [apply above_start|].
  split; [exact (heads_tokens _ _ Hx)|]. split; [intros H; rewrite (X0 H); reflexivity|].
  split; [unfold kept_before; rewrite Ey in Hy; destruct a; exact Hy|].
  assert (Bz : forall body, block body -> block (above z' body)).
  { intros body [[w [rr ->]] [r2 [w2 E2]]]. split.
    - destruct z' as [|c z']; [eexists _, _; reflexivity|cbn [above]; eexists _, _; reflexivity].
    - rewrite above_app, E2, app_assoc. eexists _, _. reflexivity. }
  split; [exact (Bz _ Bc)|]. split.
  - exists [e']. split; [repeat constructor; exact Ti|]. cbn [flat_map]. rewrite app_nil_r, <- Tk.
    rewrite !above_split, !ptokens_app, (heads_tokens _ _ Hx), (heads_tokens _ _ Hy). reflexivity.
  - intros Cm. destruct (Ca Cm) as (body & Bb & ->). exists (above z' body), (behind 0 trail).
    split; [exact (Bz _ Bb)|]. split; [rewrite (above_app z' body), <- app_assoc, <- above_app; reflexivity|].
    apply tracked_follows. rewrite Et. unfold kept_behind. destruct b; exact Tr.
Qed.

Variable pc : doc -> option (list piece).
Hypothesis Cp : cell_printer pc.

Lemma shown_before eff a bs : Forall2 (shows_dressed o eff) a bs ->
  forall pre, ptokens pre = flat_map ptokens bs -> shows_tokens o (p_stmt eff) a pre.
Proof.
  intros F2. assert (X : exists es', Forall2 (tidy o (p_stmt eff)) a es' /\ flat_map ptokens bs = flat_map etokens es').
  { induction F2 as [|e bl a bs [[e' [Ti [Tk _]]] _] _ (es' & T1 & T2)]; [exists []; split; [constructor|reflexivity]|].
    exists (e' :: es'). split; [constructor; auto|]. cbn [flat_map]. rewrite Tk, T2. reflexivity. }
  destruct X as (es' & T1 & T2). intros pre E. exists es'. split; [exact T1|]. rewrite E. exact T2.
Qed.

Theorem source_file_dressed a e b out :
  r_exprs r = a ++ e :: b ->
  gap_clean src t (wide a) -> gap_clean src t (wide (a ++ [e])) -> prints (root_doc o pc r) out ->
  exists pre h core post, out = pre ++ h ++ core ++ post /\ line_start pre /\ line_end post /\
    shows_tokens o (p_stmt true) a pre /\
    heads (kept_before a (gap_comments src t (wide a))) h /\
    block core /\ shows_tokens o (p_stmt true) [e] core /\
    (calm e -> exists body f, block body /\ core = body ++ f /\
       follows (kept_behind b (gap_comments src t (wide (a ++ [e])))) f).
Proof.
  intros E C1 C2 P.
  assert (Ne : r_exprs r <> []) by (rewrite E; destruct a; discriminate).
  destruct (root_bare rf src t r W F Ne) as (N1 & N2 & N3 & N4).
  destruct (root_dressed o pc Cp r out (source_front_shaped rf src t r F) Ne N1 N2 N3 P) as (body & S & Eo).
  rewrite N4 in Eo. cbn [app] in Eo. rewrite E in S.
  destruct (spaced_split _ _ _ _ _ _ S) as (pre & blk & post & -> & B & Sh & Ls & Le & bs & F2 & Tk).
  assert (Sq : sequence r false 0 (a ++ e :: b)).
  { rewrite <- E. pose proof (file_sequence r) as Q. unfold bom_tokens in Q. rewrite N4 in Q. exact Q. }
  destruct (statement_dressed false 0 a e b true blk Sq C1 C2 Sh) as (hx & h & core & -> & _ & _ & Hx & D).
  rewrite (Hx (or_introl eq_refl)) in Eo. cbn [app] in Eo.
  exists pre, h, core, (post ++ [PNewline]). split; [rewrite Eo, <- !app_assoc; reflexivity|].
  split; [exact Ls|]. split; [destruct Le as [->|[q ->]]; right; eexists; reflexivity|].
  split; [exact (shown_before true a bs F2 pre Tk)|]. exact D.
Qed.

Theorem source_braces_dressed p n a e b g out :
  in_file o r p (EBraced n (a ++ e :: b)) -> ~ skip_asked o p (EBraced n (a ++ e :: b)) ->
  ~ curly_curly (a ++ e :: b) -> In (g, EBraced n (a ++ e :: b)) (root_nodes r) ->
  gap_clean src t (g + 1 + wide a) -> gap_clean src t (g + 1 + wide (a ++ [e])) ->
  prints (root_doc o pc r) out ->
  exists start rem pre h core post rest,
    out = start ++ PWord (WTok tLCURLY) :: rem ++ PNewline :: pre ++ h ++ core ++ post ++
            PNewline :: PWord (WTok tRCURLY) :: rest /\
    Forall remark rem /\ line_start pre /\ line_end post /\
    shows_tokens o (p_stmt true) a pre /\
    heads (kept_before a (gap_comments src t (g + 1 + wide a))) h /\
    block core /\ shows_tokens o (p_stmt (match b with [] => false | _ => true end)) [e] core /\
    (calm e -> exists body f, block body /\ core = body ++ f /\
       follows (kept_behind b (gap_comments src t (g + 1 + wide (a ++ [e])))) f).
Proof.
  intros I Sk Cc G C1 C2 P.
  assert (Ne : a ++ e :: b <> []) by (destruct a; discriminate).
  destruct (braces_dressed o pc Cp r out p n _ (source_front_shaped rf src t r F) I Sk Ne Cc P)
    as (start & rem & body & rest & Eo & Fr & S).
  destruct (spaced_split _ _ _ _ _ _ S) as (pre & blk & post & -> & B & Sh & Ls & Le & bs & F2 & Tk).
  destruct (statement_dressed true (g + 1) a e b _ blk (brace_sequence r _ _ _ G) C1 C2 Sh)
    as (hx & h & core & -> & Lx & Tx & Hx & D).
  exists start, rem, (pre ++ hx), h, core, post, rest.
  split; [rewrite Eo, <- !app_assoc; reflexivity|]. split; [exact Fr|]. split; [apply start_app; assumption|].
  split; [exact Le|]. split.
  - apply (shown_before true a bs F2). rewrite ptokens_app, Tx, app_nil_r. exact Tk.
  - destruct b; exact D.
Qed.
End Source.
