(** Comments are printed above their statement and behind it. *)
From Coq Require Import List Arith Bool NArith Lia.
From Verif Require Import Text SettingsModel SyntaxKind DirectiveModel FmtTree IrModel TableModel
  FmtModel FmtSpec FmtPathSpec FmtProofs FmtRunProofs FmtListProofs FmtTidyProofs FmtPathProofs
  DressSpec FmtEdgeProofs FmtBlankProofs.
Import ListNotations.

Lemma above_app cs rest : above cs rest = above cs [] ++ rest.
Proof.
  induction cs as [|c cs IH]; [reflexivity|]. cbn [above]. rewrite IH, app_assoc. reflexivity.
Qed.
Lemma leading_runs cs m : forall os st, glay m (leading_comments cs) os -> p_space st = false ->
  exists st', exec (st, []) os = (above cs [], (st', [])) /\ p_space st' = false.
Proof.
  induction cs as [|c cs IH]; intros os st L Sp.
  { cbn [leading_comments map cat glay] in L. subst os. exists st. auto. }
  change (leading_comments (c :: cs)) with
    (DCat (cat [ DWord (WComment (c_text c)); DLine (if 1 <? c_after c then LEmpty else LHard) ])
          (leading_comments cs)) in L.
  split_lay L. split_lay A. split_lay A. lay_nil A. rewrite !app_nil_r.
  cbn [glay] in A0. subst x0.
  assert (E : x = [OStep (SLine (1 <? c_after c))]).
  { destruct (1 <? c_after c); exact A1. }
  subst x. destruct (IH y (off_line_st (1 <? c_after c)) L eq_refl) as [st' [E' P']].
  exists st'. split; [|exact P']. cbn [app exec print_step fst snd]. rewrite Sp. cbn [app].
  unfold flush. cbn [fst snd held_steps flat_map print_steps p_line p_empty]. rewrite !andb_true_r.
  destruct (1 <? c_after c) eqn:E; cbn [above]; rewrite E;
    fold (off_line_st true); fold (off_line_st false); rewrite E'; reflexivity.
Qed.

(** The comments held back by trailing comments. *)
Fixpoint suffixes (lines : nat) (cs : list comment) : list (gap * text) :=
  match cs with
  | [] => []
  | c :: r => (if 0 <? lines + c_before c then GLine (1 <? c_before c) else GSpace, c_text c)
              :: suffixes (lines + c_before c) r
  end.
Lemma trailing_suffixes cs m : forall k os, glay m (trailing_from k cs) os ->
  os = map (fun x => OSuffix (fst x) (snd x)) (suffixes k cs).
Proof.
  induction cs as [|c cs IH]; intros k os L; cbn [trailing_from] in L.
  { cbn [glay] in L. subst. reflexivity. }
  cbv zeta in L. split_lay L. split_lay L. split_lay L. lay_nil L. cbn [glay] in A, A0. subst.
  rewrite app_nil_r. cbn [app suffixes map fst snd]. f_equal. exact (IH _ _ A1).
Qed.
Lemma exec_suffixes l : forall st held,
  exec (st, held) (map (fun x => OSuffix (fst x) (snd x)) l) = ([], (st, held ++ l)).
Proof.
  induction l as [|[g c] l IH]; intros st held; cbn [map exec fst snd]; [rewrite app_nil_r; reflexivity|].
  rewrite IH, <- app_assoc. reflexivity.
Qed.
Lemma behind_runs cs : forall k,
  print_steps on_line_st (held_steps (suffixes k cs)) = (behind k cs, on_line_st).
Proof.
  induction cs as [|c cs IH]; intros k; [reflexivity|].
  cbn [suffixes held_steps flat_map]. change (flat_map _ ?l) with (held_steps l).
  specialize (IH (k + c_before c)). rewrite print_steps_app. cbn [behind].
  destruct (k + c_before c) as [|j] eqn:E.
  - cbn [Nat.ltb Nat.leb Nat.eqb gap_step print_steps print_step on_line_st p_space p_line p_empty orb app].
    fold on_line_st. rewrite IH. reflexivity.
  - change (0 <? S j) with true. change (S j =? 0) with false.
    cbn [gap_step print_steps print_step on_line_st p_space p_line p_empty].
    destruct (1 <? c_before c); cbn [andb negb p_space app]; fold on_line_st; rewrite IH; reflexivity.
Qed.
Lemma held_steps_app a b : held_steps (a ++ b) = held_steps a ++ held_steps b.
Proof. apply flat_map_app. Qed.
Lemma exec_line st held br : exec (st, held) [OStep (SLine br)] =
  (let '(o1, s1) := flush (st, held) in
   (o1 ++ fst (print_step s1 (SLine br)), (snd (print_step s1 (SLine br)), []))).
Proof.
  cbn [exec]. destruct (flush (st, held)) as [o1 s1]. destruct (print_step s1 (SLine br)) as [o2 s2].
  cbn [fst snd]. rewrite app_nil_r. reflexivity.
Qed.

Lemma exec_strict mid st : lastw false mid -> exists out held,
  exec (st, []) mid = (out, (on_line_st, held)) /\ word_last out.
Proof.
  intros [r [w [t [-> [N Q]]]]].
  assert (T : exists l, t = map (fun x => OSuffix (fst x) (snd x)) l).
  { clear - Q. induction Q as [|x t Qx Qt [l ->]]; [exists []; reflexivity|].
    destruct x as [[w| |[]]|g c]; try contradiction; [discriminate Qx|].
    exists ((g, c) :: l). reflexivity. }
  destruct T as [l ->]. rewrite exec_app. destruct (exec (st, []) r) as [o1 [s1 h1]].
  cbn [exec fst snd].
  assert (P : print_step s1 (SWord w) = ((if p_space s1 then [PSpace] else []) ++ [PWord w], on_line_st))
    by (destruct w; try reflexivity; contradiction).
  rewrite P, exec_suffixes. eexists _, _. split; [reflexivity|].
  rewrite app_nil_r, app_assoc. eexists _, _. reflexivity.
Qed.
Lemma first_piece os st : firstw os -> p_space st = false -> exists w r, fst (exec (st, []) os) = PWord w :: r.
Proof.
  intros [w [r [-> N]]] Sp. cbn [exec fst].
  assert (P : print_step st (SWord w) = ([PWord w], on_line_st))
    by (cbn [print_step]; rewrite Sp; destruct w; try reflexivity; contradiction).
  rewrite P. destruct (exec (on_line_st, _) r) as [o2 s2]. eexists _, _. reflexivity.
Qed.
Lemma held_word_last b h : word_last b ->
  exists a, print_steps on_line_st (held_steps h) = (a, on_line_st) /\ word_last (b ++ a).
Proof.
  revert b. induction h as [|[g c] h IH]; intros b B; [exists []; rewrite app_nil_r; auto|].
  cbn [held_steps flat_map]. rewrite print_steps_app. change (flat_map _ ?l) with (held_steps l).
  assert (X : exists o1, print_steps on_line_st [gap_step g; SWord (WComment c)] = (o1, on_line_st) /\
    word_last (b ++ o1)).
  { cbn [print_steps]. destruct (print_step on_line_st (gap_step g)) as [p1 t1]. cbn [print_step].
    eexists. split; [reflexivity|]. rewrite app_nil_r, app_assoc. eexists _, _.
    rewrite app_assoc. reflexivity. }
  destruct X as [o1 [-> W]]. destruct (IH _ W) as [a [-> Wa]].
  eexists. split; [reflexivity|]. rewrite app_assoc. exact Wa.
Qed.

Lemma dressed_run ls ts m lead mid trail st br b :
  glay m (leading_comments ls) lead -> glay m (trailing_comments ts) trail ->
  firstw mid -> lastw true mid -> p_space st = false ->
  exec (st, []) ((lead ++ mid ++ trail) ++ [OStep (SLine br)]) =
    (b ++ repeat PNewline (if br then 2 else 1), (off_line_st br, [])) ->
  exists core, block core /\ b = above ls core /\
    (lastw false mid -> exists body, block body /\ core = body ++ behind 0 ts).
Proof.
  intros Ll Lt F La Sp E. apply trailing_suffixes in Lt. subst trail.
  destruct (leading_runs ls m lead st Ll Sp) as [st' [El Sp']].
  assert (Q : Forall (quiet true) (map (fun x => OSuffix (fst x) (snd x)) (suffixes 0 ts))).
  { apply Forall_forall. intros x I. apply in_map_iff in I. destruct I as [y [<- _]]. exact I. }
  destruct (stmt_block (mid ++ map (fun x => OSuffix (fst x) (snd x)) (suffixes 0 ts)) br st'
    (firstw_app _ _ F) (lastw_app_l true _ _ La Q) Sp') as [core [Bc [Ec _]]].
  exists core. split; [exact Bc|].
  rewrite <- (app_assoc lead), exec_app, El, Ec in E. injection E as E. rewrite app_assoc in E.
  apply app_inv_tail in E. rewrite <- above_app in E. split; [symmetry; exact E|].
  intros Ls. destruct (exec_strict mid st' Ls) as [out [held [Em W]]].
  destruct (first_piece mid st' F Sp') as [w [r Ew]]. rewrite Em in Ew. cbn [fst] in Ew.
  destruct (held_word_last out held W) as [a [Ea Wa]].
  exists (out ++ a). split; [split; [|exact Wa]; rewrite Ew; eexists _, _; reflexivity|].
  rewrite <- app_assoc, exec_app, Em, exec_app, exec_suffixes, exec_line in Ec.
  unfold flush in Ec. cbn [fst snd] in Ec. rewrite held_steps_app, print_steps_app, Ea, behind_runs in Ec.
  injection Ec as Ec. cbn [app] in Ec. rewrite <- (app_assoc out).
  destruct br; cbn [andb fst repeat] in Ec;
    rewrite !app_assoc in Ec; rewrite !app_assoc; symmetry; exact (app_inv_tail _ _ _ Ec).
Qed.

Section Dress.
Variable o : format_options.
Variable pc : doc -> option (list piece).
Hypothesis Cp : cell_printer pc.

Lemma dressed_doc effect e anc st br m os b :
  sort_of e = SoExpr -> shaped e -> agree anc (p_stmt effect) ->
  glay m (fmt o pc anc fo0 e) os -> p_space st = false ->
  exec (st, []) (os ++ [OStep (SLine br)]) =
    (b ++ repeat PNewline (if br then 2 else 1), (off_line_st br, [])) ->
  dressed o (p_stmt effect) e b.
Proof.
  intros So Sh A L Sp E.
  assert (Fr : forall lo, lo = true \/ calm e -> framed lo o anc e (fmt o pc anc fo0 e)).
  { intros lo Ca. apply (fmt_framed o pc (S (esize e)) e); auto. }
  destruct (Fr true (or_introl eq_refl)) as [f [g [Ed H]]].
  rewrite Ed in L. unfold node_rule in L. destruct (suppressed o anc e) eqn:Es.
  - unfold verbatim in L. split_lay L. split_lay L. split_lay L. lay_nil L. rewrite app_nil_r in E.
    cbn [glay] in A1. subst x0.
    assert (Fw : firstw [OStep (SWord (WVerb e))]).
    { eexists _, _. split; [reflexivity|]. cbn. apply some_token; auto. }
    destruct (dressed_run _ _ m x [OStep (SWord (WVerb e))] x1 st br b A0 A2 Fw
      (lastw_word true (WVerb e) ltac:(discriminate)) Sp E) as [core [Bc [Eb Ob]]].
    exists (outer (n_lead (notes_of e))), (outer (n_trail (notes_of e))), core.
    split; [right; split; [exact (suppressed_asked o anc e _ (proj1 (proj2 A)) Es)|split; reflexivity]|].
    split; [exact Bc|]. split; [exact Eb|]. intros _. apply Ob, lastw_word. discriminate.
  - split_lay L. split_lay L. split_lay L. split_lay L. lay_nil L. rewrite app_nil_r in E.
    assert (E' : exec (st, []) ((x ++ (x0 ++ x1) ++ x2) ++ [OStep (SLine br)]) =
      (b ++ repeat PNewline (if br then 2 else 1), (off_line_st br, []))).
    { rewrite <- E. rewrite <- !app_assoc. reflexivity. }
    assert (Lm : forall lo, lo = true \/ calm e -> lastw lo (x0 ++ x1)).
    { intros lo Ca. destruct (Fr lo Ca) as [f' [g' [Ed' H']]].
      assert (EE : f' = f /\ g' = g).
      { rewrite Ed in Ed'. unfold node_rule in Ed'. rewrite Es in Ed'. cbn [cat] in Ed'.
        injection Ed' as E1 E2. auto. }
      destruct EE as [-> ->]. destruct (H' m) as [[_ Lf] Lg].
      destruct (Lg x1 A2) as [Q|W]; [apply lastw_app_l; [apply Lf, A1|exact Q]|apply lastw_app_r, W]. }
    assert (Fw : firstw (x0 ++ x1)) by (apply firstw_app; apply (proj1 (proj1 (H m)) x0 A1)).
    destruct (dressed_run _ _ m x (x0 ++ x1) x2 st br b A0 A3 Fw (Lm true (or_introl eq_refl)) Sp E')
      as [core [Bc [Eb Ob]]].
    exists (n_lead (notes_of e)), (n_trail (notes_of e)), core.
    split; [left; split; reflexivity|]. split; [exact Bc|]. split; [exact Eb|].
    intros Ca. apply Ob, Lm. right. exact Ca.
Qed.
Lemma dressed_stmt_doc last anc effect e :
  sort_of e = SoExpr -> shaped e -> agree anc (p_stmt effect) ->
  stmt_doc (fun _ => shows_dressed o effect) last e (fmt o pc anc fo0 e).
Proof.
  intros So Sh A m os st br L Sp.
  destruct (fmt_stmt_doc o pc Cp last anc effect e So Sh A m os st br L Sp) as [b [B [E S]]].
  exists b. split; [exact B|]. split; [exact E|]. split; [exact S|].
  exact (dressed_doc effect e anc st br m os b So Sh A L Sp E).
Qed.

Lemma root_dressed r out :
  root_shaped r -> r_exprs r <> [] ->
  n_lead (r_notes r) = [] -> n_dang (r_notes r) = [] -> n_trail (r_notes r) = [] ->
  prints (root_doc o pc r) out ->
  exists body, spaced (fun _ => shows_dressed o true) 2 (r_exprs r) body /\
    out = match r_bom r with Some t => [PWord (WTok (norm_token t))] | None => [] end
          ++ body ++ [PNewline].
Proof.
  apply root_spaced_by. intros last e _ S1 S2.
  apply (dressed_stmt_doc last _ true); [exact S1|exact S2|repeat split].
Qed.
Lemma braces_dressed r out p n es :
  root_shaped r -> in_file o r p (EBraced n es) -> ~ skip_asked o p (EBraced n es) ->
  es <> [] -> ~ curly_curly es ->
  prints (root_doc o pc r) out ->
  exists pre a body post,
    out = pre ++ PWord (WTok tLCURLY) :: a ++ PNewline :: body ++
            PNewline :: PWord (WTok tRCURLY) :: post /\
    Forall remark a /\ spaced (fun last => shows_dressed o (negb last)) 1 es body.
Proof.
  apply braces_spaced_by. intros last e anc _ S1 S2 A m os st br L Sp.
  exact (dressed_stmt_doc last anc (negb last) e S1 S2 A m os st br L Sp).
Qed.
End Dress.
