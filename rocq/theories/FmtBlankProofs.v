(** Blank lines between expressions. *)
From Coq Require Import List Arith Bool NArith Lia Permutation.
From Verif Require Import Text SettingsModel SyntaxKind DirectiveModel FmtTree IrModel TableModel
  FmtModel FmtSpec FmtPathSpec FmtProofs FmtRunProofs FmtListProofs FmtTidyProofs FmtRootProofs
  FmtPathProofs FmtEdgeProofs.
Import ListNotations.

(** * Printing in stretches *)

(** What is printed, the printer's state and the comments held back. *)
Definition state := (pstate * list (gap * text))%type.
Definition flush (s : state) : list piece * pstate := print_steps (fst s) (held_steps (snd s)).
Fixpoint exec (s : state) (os : list op) : list piece * state :=
  match os with
  | [] => ([], s)
  | OSuffix g c :: r => exec (fst s, snd s ++ [(g, c)]) r
  | OStep (SLine e) :: r =>
    let '(o1, st1) := flush s in
    let '(o2, st2) := print_step st1 (SLine e) in
    let '(o3, s3) := exec (st2, []) r in (o1 ++ o2 ++ o3, s3)
  | OStep x :: r =>
    let '(o1, st1) := print_step (fst s) x in
    let '(o2, s2) := exec (st1, snd s) r in (o1 ++ o2, s2)
  end.

Lemma print_steps_app a b : forall st,
  print_steps st (a ++ b) =
  (let '(o1, s1) := print_steps st a in let '(o2, s2) := print_steps s1 b in (o1 ++ o2, s2)).
Proof.
  induction a as [|x a IH]; intros st; cbn [app print_steps].
  - destruct (print_steps st b). reflexivity.
  - destruct (print_step st x) as [o1 s1]. rewrite IH. destruct (print_steps s1 a) as [o2 s2].
    destruct (print_steps s2 b) as [o3 s3]. rewrite app_assoc. reflexivity.
Qed.
Lemma exec_app a b : forall s,
  exec s (a ++ b) =
  (let '(o1, s1) := exec s a in let '(o2, s2) := exec s1 b in (o1 ++ o2, s2)).
Proof.
  induction a as [|x a IH]; intros s; cbn [app exec].
  - destruct (exec s b). reflexivity.
  - destruct x as [[w| |e]|g c]; try rewrite IH; cbn [fst snd].
    + destruct (print_step (fst s) (SWord w)) as [o1 s1]. rewrite IH.
      destruct (exec (s1, snd s) a) as [o2 s2]. destruct (exec s2 b) as [o3 s3].
      rewrite app_assoc. reflexivity.
    + destruct (print_step (fst s) SSpace) as [o1 s1]. rewrite IH.
      destruct (exec (s1, snd s) a) as [o2 s2]. destruct (exec s2 b) as [o3 s3].
      rewrite app_assoc. reflexivity.
    + destruct (flush s) as [o1 s1]. destruct (print_step s1 (SLine e)) as [o2 s2].
      rewrite IH. destruct (exec (s2, []) a) as [o3 s3]. destruct (exec s3 b) as [o4 s4].
      rewrite !app_assoc. reflexivity.
    + reflexivity.
Qed.
Lemma exec_run os : forall st held,
  fst (print_steps st (unsuffix held os)) =
  fst (exec (st, held) os) ++ fst (flush (snd (exec (st, held) os))).
Proof.
  induction os as [|x os IH]; intros st held; [reflexivity|].
  destruct x as [[w| |e]|g c]; cbn [unsuffix exec fst snd].
  - cbn [print_steps]. destruct (print_step st (SWord w)) as [o1 s1]. specialize (IH s1 held).
    destruct (print_steps s1 _) as [o2 s2]. destruct (exec (s1, held) os) as [o3 s3].
    cbn [fst snd] in *. rewrite IH, app_assoc. reflexivity.
  - cbn [print_steps]. destruct (print_step st SSpace) as [o1 s1]. specialize (IH s1 held).
    destruct (print_steps s1 _) as [o2 s2]. destruct (exec (s1, held) os) as [o3 s3].
    cbn [fst snd] in *. rewrite IH, app_assoc. reflexivity.
  - rewrite print_steps_app. change (flush (st, held)) with (print_steps st (held_steps held)).
    destruct (print_steps st (held_steps held)) as [o1 s1]. cbn [print_steps].
    destruct (print_step s1 (SLine e)) as [o2 s2]. specialize (IH s2 []).
    destruct (print_steps s2 _) as [o3 s3]. destruct (exec (s2, []) os) as [o4 s4].
    cbn [fst snd] in *. rewrite IH, !app_assoc. reflexivity.
  - rewrite IH. reflexivity.
Qed.
Lemma run_exec os :
  run os = fst (exec (pstart, []) os) ++ fst (flush (snd (exec (pstart, []) os))).
Proof. apply exec_run. Qed.

Lemma exec_tokens os : forall s, ptokens (fst (exec s os)) = optokens os.
Proof.
  induction os as [|x os IH]; intros s; [reflexivity|].
  destruct x as [[w| |e]|g c]; cbn [exec].
  - pose proof (print_step_tokens (fst s) (SWord w)) as A.
    destruct (print_step (fst s) (SWord w)) as [o1 s1]. specialize (IH (s1, snd s)).
    destruct (exec (s1, snd s) os) as [o2 s2]. cbn [fst] in *. rewrite ptokens_app, A, IH. reflexivity.
  - pose proof (print_step_tokens (fst s) SSpace) as A.
    destruct (print_step (fst s) SSpace) as [o1 s1]. specialize (IH (s1, snd s)).
    destruct (exec (s1, snd s) os) as [o2 s2]. cbn [fst] in *. rewrite ptokens_app, A, IH. reflexivity.
  - unfold flush. pose proof (proj1 (print_steps_shows (held_steps (snd s)) (fst s))) as H.
    destruct (print_steps (fst s) (held_steps (snd s))) as [o1 s1].
    pose proof (print_step_tokens s1 (SLine e)) as A.
    destruct (print_step s1 (SLine e)) as [o2 s2]. specialize (IH (s2, [])).
    destruct (exec (s2, []) os) as [o3 s3]. cbn [fst] in *.
    rewrite !ptokens_app, A, IH, H, held_tokens. reflexivity.
  - exact (IH _).
Qed.
Lemma exec_comments c os : forall s,
  tcount c (pcomments (fst (exec s os))) + tcount c (map snd (snd (snd (exec s os)))) =
  tcount c (map snd (snd s)) + tcount c (opcomments os).
Proof.
  induction os as [|x os IH]; intros s; [cbn; lia|].
  assert (Ec : opcomments (x :: os) = opcomments [x] ++ opcomments os)
    by (rewrite <- opcomments_app; reflexivity).
  rewrite Ec, tcount_app. clear Ec.
  destruct x as [[w| |e]|g c']; cbn [exec].
  - pose proof (print_step_comments (fst s) (SWord w)) as A.
    destruct (print_step (fst s) (SWord w)) as [o1 s1]. specialize (IH (s1, snd s)).
    destruct (exec (s1, snd s) os) as [o2 s2]. cbn [fst snd] in *.
    rewrite pcomments_app, tcount_app, A.
    change (opcomments [OStep (SWord w)]) with (step_comments (SWord w) ++ []).
    rewrite app_nil_r. lia.
  - pose proof (print_step_comments (fst s) SSpace) as A.
    destruct (print_step (fst s) SSpace) as [o1 s1]. specialize (IH (s1, snd s)).
    destruct (exec (s1, snd s) os) as [o2 s2]. cbn [fst snd] in *.
    rewrite pcomments_app, tcount_app, A. cbn. lia.
  - unfold flush. pose proof (proj2 (print_steps_shows (held_steps (snd s)) (fst s))) as H.
    destruct (print_steps (fst s) (held_steps (snd s))) as [o1 s1].
    pose proof (print_step_comments s1 (SLine e)) as A.
    destruct (print_step s1 (SLine e)) as [o2 s2]. specialize (IH (s2, [])).
    destruct (exec (s2, []) os) as [o3 s3]. cbn [fst snd] in *.
    rewrite !pcomments_app, !tcount_app, A, H, held_comments. cbn. cbn in IH. lia.
  - rewrite IH. cbn [snd]. rewrite map_app, tcount_app.
    change (opcomments [OSuffix g c']) with [c']. change (map snd [(g, c')]) with [c']. lia.
Qed.

Lemma held_remarks held : forall st, Forall remark (fst (print_steps st (held_steps held))).
Proof.
  induction held as [|[g c] held IH]; intros st; [constructor|].
  cbn [held_steps flat_map]. rewrite print_steps_app.
  destruct (print_steps st [gap_step g; SWord (WComment c)]) as [o1 s1] eqn:E.
  specialize (IH s1). change (flat_map _ held) with (held_steps held).
  destruct (print_steps s1 (held_steps held)) as [o2 s2]. cbn [fst] in *.
  apply Forall_app. split; [|exact IH].
  cbn [print_steps] in E. destruct (print_step st (gap_step g)) as [p1 t1] eqn:E1.
  cbn [print_step] in E. injection E as <- _. apply Forall_app. split.
  - destruct g as [|e]; cbn [gap_step print_step] in E1.
    + injection E1 as <- _. constructor.
    + destruct (p_line st), e, (p_empty st); cbn in E1; injection E1 as <- _; repeat constructor.
  - rewrite app_nil_r. destruct (p_space t1); repeat constructor.
Qed.

(** * One expression *)

Definition on_line_st : pstate := {| p_line := true; p_space := false; p_empty := false |}.
Definition off_line_st (e : bool) : pstate := {| p_line := false; p_space := false; p_empty := e |}.
Definition word_last (b : list piece) : Prop := exists r w, b = r ++ [PWord w].

(** Printed so far: text that ends with a word, and perhaps a line break. *)
Definition after (b : list piece) (st : pstate) : Prop :=
  word_last b /\ st = on_line_st \/
  (exists b', b = b' ++ [PNewline] /\ word_last b') /\ st = off_line_st false.

Lemma after_held held : forall b st, after b st ->
  after (b ++ fst (print_steps st (held_steps held))) (snd (print_steps st (held_steps held))).
Proof.
  induction held as [|[g c] held IH]; intros b st A; [cbn; rewrite app_nil_r; exact A|].
  cbn [held_steps flat_map]. rewrite print_steps_app.
  change (flat_map _ held) with (held_steps held).
  assert (X : exists o1, print_steps st [gap_step g; SWord (WComment c)] = (o1, on_line_st) /\
                word_last o1).
  { cbn [print_steps]. destruct (print_step st (gap_step g)) as [p1 t1]. cbn [print_step].
    eexists. split; [reflexivity|]. rewrite app_nil_r, app_assoc. eexists _, _. reflexivity. }
  destruct X as [o1 [-> [r [w ->]]]].
  specialize (IH (b ++ r ++ [PWord w]) on_line_st).
  destruct (print_steps on_line_st (held_steps held)) as [o2 s2]. cbn [fst snd] in *.
  rewrite <- app_assoc in IH. rewrite <- app_assoc.
  rewrite <- app_assoc in IH. apply IH. left. split; [|reflexivity]. eexists _, _.
  rewrite app_assoc. reflexivity.
Qed.
Lemma after_line b st e : after b st ->
  exists b', word_last b' /\
    b ++ fst (print_step st (SLine e)) = b' ++ repeat PNewline (if e then 2 else 1) /\
    snd (print_step st (SLine e)) = off_line_st e.
Proof.
  intros [[W ->]|[[b' [-> W]] ->]].
  - exists b. split; [exact W|]. destruct e; split; reflexivity.
  - exists b'. split; [exact W|]. destruct e; cbn; rewrite <- ?app_assoc; split; reflexivity.
Qed.
Lemma after_quiet t : forall b st held, Forall (quiet true) t -> after b st ->
  exists st' held', snd (exec (st, held) t) = (st', held') /\
    after (b ++ fst (exec (st, held) t)) st'.
Proof.
  induction t as [|x t IH]; intros b st held Q A.
  { exists st, held. cbn. rewrite app_nil_r. auto. }
  inversion Q as [|? ? Qx Qt]; subst.
  destruct x as [[w| |[]]|g c]; try contradiction; cbn [exec fst snd].
  - unfold flush. cbn [fst snd]. pose proof (after_held held b st A) as H.
    destruct (print_steps st (held_steps held)) as [o1 s1]. cbn [fst snd] in H.
    destruct (after_line _ _ false H) as [b' [W [E1 E2]]].
    destruct (print_step s1 (SLine false)) as [o2 s2]. cbn [fst snd] in E1, E2. subst s2.
    destruct (IH ((b ++ o1) ++ o2) (off_line_st false) [] Qt) as [st' [held' [F G]]].
    { right. split; [|reflexivity]. exists b'. split; [exact E1|exact W]. }
    destruct (exec (off_line_st false, []) t) as [o3 s3]. cbn [fst snd] in *.
    exists st', held'. split; [exact F|]. rewrite <- !app_assoc in G. exact G.
  - exact (IH b st (held ++ [(g, c)]) Qt A).
Qed.

(** A statement and the line break after it, from the beginning of a line. *)
Lemma stmt_block os e st :
  firstw os -> lastw true os -> p_space st = false ->
  exists b, block b /\
    exec (st, []) (os ++ [OStep (SLine e)]) =
      (b ++ repeat PNewline (if e then 2 else 1), (off_line_st e, [])) /\
    ptokens b = optokens os /\ (forall c, tcount c (pcomments b) = tcount c (opcomments os)).
Proof.
  intros [w1 [r1 [E1 N1]]] [r [w [t [E2 [N2 Q]]]]] Sp.
  assert (X : exists b, block b /\ exec (st, []) (os ++ [OStep (SLine e)]) =
      (b ++ repeat PNewline (if e then 2 else 1), (off_line_st e, []))).
  { assert (H : exec (st, []) (os ++ [OStep (SLine e)]) =
      exec (st, []) ((r ++ [OStep (SWord w)]) ++ t ++ [OStep (SLine e)])).
    { rewrite E2, <- !app_assoc. reflexivity. }
    remember (exec (st, []) (os ++ [OStep (SLine e)])) as R eqn:ER.
    rewrite exec_app in H. destruct (exec (st, []) (r ++ [OStep (SWord w)])) as [oa sa] eqn:EA.
    assert (Wa : word_last oa /\ fst sa = on_line_st).
    { rewrite exec_app in EA. destruct (exec (st, []) r) as [o1 s1]. cbn [exec] in EA.
      assert (P : print_step (fst s1) (SWord w) =
        ((if p_space (fst s1) then [PSpace] else []) ++ [PWord w], on_line_st))
        by (destruct w; try reflexivity; contradiction).
      rewrite P in EA. injection EA as <- <-. split; [|reflexivity].
      exists (o1 ++ (if p_space (fst s1) then [PSpace] else [])), w.
      rewrite app_nil_r, app_assoc. reflexivity. }
    destruct Wa as [Wa Sa]. destruct sa as [sta ha]. cbn [fst] in Sa. subst sta.
    rewrite exec_app in H.
    destruct (after_quiet t oa on_line_st ha Q (or_introl (conj Wa eq_refl))) as [st' [h' [F G]]].
    destruct (exec (on_line_st, ha) t) as [ot s']. cbn [fst snd] in F, G. subst s'.
    cbn [exec] in H. unfold flush in H. cbn [fst snd] in H.
    pose proof (after_held h' _ _ G) as G'.
    destruct (print_steps st' (held_steps h')) as [oh sh]. cbn [fst snd] in G'.
    destruct (after_line _ _ e G') as [b [W [F1 F2]]].
    destruct (print_step sh (SLine e)) as [ol sl]. cbn [fst snd] in F1, F2. subst sl.
    exists b. rewrite app_nil_r in H.
    assert (Eq : oa ++ ot ++ oh ++ ol = b ++ repeat PNewline (if e then 2 else 1)).
    { rewrite <- F1, <- !app_assoc. reflexivity. }
    rewrite Eq in H. split; [|exact H]. split; [|exact W].
    (* the first piece *)
    rewrite ER, E1 in H. cbn [app exec fst snd] in H.
    assert (P : print_step st (SWord w1) = ([PWord w1], on_line_st))
      by (cbn [print_step]; rewrite Sp; destruct w1; try reflexivity; contradiction).
    rewrite P in H. destruct (exec (on_line_st, []) (r1 ++ _)) as [o9 s9].
    injection H as H _. cbn [app] in H. destruct b as [|p b].
    { destruct W as [? [? W]]. destruct x; discriminate. }
    injection H as <- _. eexists _, _. reflexivity. }
  destruct X as [b [B X]]. exists b. split; [exact B|]. split; [exact X|].
  pose proof (exec_tokens (os ++ [OStep (SLine e)]) (st, [])) as T.
  pose proof (fun c => exec_comments c (os ++ [OStep (SLine e)]) (st, [])) as C.
  rewrite X in T, C. cbn [fst snd] in T, C. rewrite optokens_app, ptokens_app in T.
  assert (R : forall k, ptokens (repeat PNewline k) = [] /\ pcomments (repeat PNewline k) = []).
  { induction k as [|k [A A']]; [split; reflexivity|]. split; [exact A|exact A']. }
  rewrite (proj1 (R _)) in T. cbn in T. rewrite !app_nil_r in T. split; [exact T|].
  intros c. specialize (C c). rewrite pcomments_app, opcomments_app, (proj2 (R _)), !tcount_app in C.
  change (opcomments [OStep (SLine e)]) with (@nil text) in C. cbn [map tcount count_occ] in C. lia.
Qed.

(** * Lists of expressions *)

Definition limit (double : bool) : nat := if double then 2 else 1.
Lemma entry_break_runs double k m os rest :
  glay m (entry_break double k) os ->
  exists e extra, os = OStep (SLine e) :: extra /\
    exec (off_line_st e, []) (extra ++ rest) =
      (let '(o, s) := exec (off_line_st (if (negb double || negb (2 <? k)) then e else false), []) rest in
       (repeat PNewline (if double && (2 <? k) then 1 else 0) ++ o, s)) /\
    (if e then 2 else 1) + (if double && (2 <? k) then 1 else 0) = 1 + Nat.min (limit double) (k - 1).
Proof.
  unfold entry_break, limit. destruct double.
  - destruct (2 <? k) eqn:E2.
    + intros H. split_lay H. split_lay H. lay_nil H. cbn [glay] in A, A0. subst.
      exists true, [OStep (SWord WBreak)]. split; [reflexivity|]. split.
      * cbn [app exec print_step off_line_st p_space fst snd negb orb].
        destruct (exec _ rest). reflexivity.
      * apply Nat.ltb_lt in E2. cbn [andb]. lia.
    + destruct (k =? 2) eqn:E3; intros H; cbn [glay] in H; subst.
      * exists true, []. split; [reflexivity|]. split; [cbn; destruct (exec _ rest); reflexivity|]. apply Nat.eqb_eq in E3. subst. reflexivity.
      * exists false, []. split; [reflexivity|]. split; [cbn; destruct (exec _ rest); reflexivity|]. apply Nat.eqb_neq in E3. apply Nat.ltb_ge in E2. cbn [andb]. lia.
  - destruct (1 <? k) eqn:E2; intros H; cbn [glay] in H; subst.
    + exists true, []. split; [reflexivity|]. split; [cbn; destruct (exec _ rest); reflexivity|]. apply Nat.ltb_lt in E2. cbn [andb]. lia.
    + exists false, []. split; [reflexivity|]. split; [cbn; destruct (exec _ rest); reflexivity|]. apply Nat.ltb_ge in E2. cbn [andb]. lia.
Qed.

Section Lists.
Variable shows : bool -> expr -> list piece -> Prop.
(** The documents of expressions print them, with words at both ends. *)
Definition stmt_doc (last : bool) (e : expr) (d : doc) : Prop :=
  forall m os st br, glay m d os -> p_space st = false ->
    exists b, block b /\
      exec (st, []) (os ++ [OStep (SLine br)]) =
        (b ++ repeat PNewline (if br then 2 else 1), (off_line_st br, [])) /\
      shows last e b.
Inductive stmt_docs : list (expr * doc) -> Prop :=
| SD_one e d : stmt_doc true e d -> stmt_docs [(e, d)]
| SD_cons e d x l : stmt_doc false e d -> stmt_docs (x :: l) -> stmt_docs ((e, d) :: x :: l).

Lemma entries_spaced double m l : stmt_docs l -> forall os st,
  glay m (join_entries double true l) os -> p_space st = false ->
  exists body, spaced shows (limit double) (map fst l) body /\
    exec (st, []) (os ++ [OStep (SLine false)]) = (body ++ [PNewline], (off_line_st false, [])).
Proof.
  induction 1 as [e d D|e d [e' d'] l D SD IH]; intros os st L Sp.
  - cbn [join_entries] in L. split_lay L. split_lay L. split_lay L. lay_nil L.
    cbn [glay] in A, A1. subst. rewrite !app_nil_r. cbn [app].
    destruct (D m x0 st false A0 Sp) as [b [B [E Sh]]].
    exists b. split; [|exact E]. cbn [map fst]. constructor; [exact B|exact Sh].
  - change (join_entries double true ((e, d) :: (e', d') :: l)) with
      (cat [DNil; d; cat [entry_break double (n_lines (notes_of e')); d'; join_entries double false l]]) in L.
    split_lay L. split_lay L. split_lay L. lay_nil L. cbn [glay] in A. subst x. cbn [app].
    rewrite app_nil_r. split_lay A1.
    destruct (entry_break_runs double _ m x ((y ++ [OStep (SLine false)])) A)
      as [br [extra [-> [E1 E2]]]].
    destruct (D m x0 st br A0 Sp) as [b [B [E Sh]]].
    assert (L' : glay m (join_entries double true ((e', d') :: l)) y).
    { cbn [join_entries cat]. exists [], y. split; [reflexivity|]. split; [exact A1|reflexivity]. }
    destruct (IH y (off_line_st (if negb double || negb (2 <? n_lines (notes_of e')) then br else false))
      L' eq_refl) as [body [Spc Eb]].
    rewrite Eb in E1.
    exists (b ++ repeat PNewline (1 + Nat.min (limit double) (n_lines (notes_of e') - 1)) ++ body).
    split; [cbn [map fst]; constructor; [exact B|exact Sh|exact Spc]|].
    replace ((x0 ++ (OStep (SLine br) :: extra) ++ y) ++ [OStep (SLine false)])
      with ((x0 ++ [OStep (SLine br)]) ++ extra ++ (y ++ [OStep (SLine false)]))
      by (rewrite <- !app_assoc; reflexivity).
    rewrite exec_app, E, E1. rewrite <- E2, repeat_app, <- !app_assoc. reflexivity.
Qed.
End Lists.

Lemma held_on_line h : exists a, print_steps on_line_st (held_steps h) = (a, on_line_st) /\ Forall remark a.
Proof.
  pose proof (held_remarks h on_line_st) as R.
  assert (E : snd (print_steps on_line_st (held_steps h)) = on_line_st).
  { clear R. induction h as [|[g c] h IH]; [reflexivity|].
    cbn [held_steps flat_map]. rewrite print_steps_app. change (flat_map _ h) with (held_steps h).
    assert (X : exists o1, print_steps on_line_st [gap_step g; SWord (WComment c)] = (o1, on_line_st)).
    { cbn [print_steps]. destruct (print_step on_line_st (gap_step g)) as [p1 t1]. cbn [print_step].
      eexists. reflexivity. }
    destruct X as [o1 ->]. destruct (print_steps on_line_st (held_steps h)). exact IH. }
  destruct (print_steps on_line_st (held_steps h)) as [a s]. cbn in E. subst s.
  exists a. split; [reflexivity|exact R].
Qed.

Section Files.
Variable o : format_options.
Variable pc : doc -> option (list piece).
Hypothesis Cp : cell_printer pc.

Lemma shows_by last anc effect e m os b :
  sort_of e = SoExpr -> shaped e -> agree anc (p_stmt effect) -> glay m (fmt o pc anc fo0 e) os ->
  ptokens b = optokens os -> (forall c, tcount c (pcomments b) = tcount c (opcomments os)) ->
  (fun _ : bool => shows_stmt o effect) last e b.
Proof.
  intros So Sh A L T C.
  destruct (child0 o pc (placed o (p_stmt effect) e) e anc (p_stmt effect) m os
    (fmt_holds o pc Cp e Sh)) as [e' [Ti [Et Ec]]]; [congruence|exact A|auto|exact L|].
  exists e'. split; [exact Ti|]. split; [rewrite T; exact Et|].
  intros Pl. apply counts_perm. intros c. rewrite C. apply (proj1 (Ec Pl)).
Qed.
Lemma fmt_stmt_doc last anc effect e :
  sort_of e = SoExpr -> shaped e -> agree anc (p_stmt effect) ->
  stmt_doc (fun _ => shows_stmt o effect) last e (fmt o pc anc fo0 e).
Proof.
  intros So Sh A m os st br L Sp. destruct (expr_edges o pc e anc fo0 m os So Sh L) as [F La].
  destruct (stmt_block os br st F La Sp) as [b [B [E [T C]]]].
  exists b. split; [exact B|]. split; [exact E|]. exact (shows_by last anc effect e m os b So Sh A L T C).
Qed.

Lemma root_spaced_by (shows : bool -> expr -> list piece -> Prop) r out :
  (forall last e, In e (r_exprs r) -> sort_of e = SoExpr -> shaped e ->
     stmt_doc shows last e (fmt o pc [FRootList] fo0 e)) ->
  root_shaped r -> r_exprs r <> [] ->
  n_lead (r_notes r) = [] -> n_dang (r_notes r) = [] -> n_trail (r_notes r) = [] ->
  prints (root_doc o pc r) out ->
  exists body, spaced shows 2 (r_exprs r) body /\
    out = match r_bom r with Some t => [PWord (WTok (norm_token t))] | None => [] end
          ++ body ++ [PNewline].
Proof.
  intros Docs Sh Ne N1 N2 N3 [os [L ->]]. apply lay_glay in L. unfold root_doc in L.
  rewrite N1, N2, N3 in L.
  split_lay L. split_lay L. split_lay L. split_lay L. split_lay L. split_lay L. lay_nil L.
  cbn [leading_comments map cat glay dangling_soft trailing_comments trailing_from] in A, A2, A3, A4.
  subst. cbn [app].
  assert (SD : stmt_docs shows
    (map (fun e => (e, fmt o pc [FRootList] fo0 e)) (r_exprs r))).
  { assert (Ok : forall last e, In e (r_exprs r) ->
      stmt_doc shows last e (fmt o pc [FRootList] fo0 e)).
    { intros last e I. destruct (all_of_In _ _ _ Sh I) as [S1 S2].
      apply Docs; [exact I|exact S1|exact S2]. }
    revert Ne Ok. generalize (r_exprs r). induction l as [|e l IH]; intros Ne Ok; [contradiction|].
    destruct l as [|e' l]; cbn [map].
    - constructor. apply Ok. left. reflexivity.
    - constructor; [apply Ok; left; reflexivity|]. apply IH; [discriminate|].
      intros last x I. apply Ok. right. exact I. }
  assert (MF : map fst (map (fun e => (e, fmt o pc [FRootList] fo0 e)) (r_exprs r)) = r_exprs r)
    by (rewrite map_map; cbn [fst]; apply map_id).
  destruct (r_bom r) as [t|].
  - cbn [glay token_doc] in A0. subst x0.
    destruct (entries_spaced _ true Expanded _ SD x1 on_line_st A1 eq_refl) as [body [Sp E]].
    rewrite MF in Sp. exists body. split; [exact Sp|]. rewrite run_exec.
    cbn [app exec fst snd print_step pstart p_space].
    change {| p_line := true; p_space := false; p_empty := false |} with on_line_st.
    rewrite E. cbn [fst snd flush held_steps flat_map print_steps]. rewrite app_nil_r. reflexivity.
  - cbn [glay] in A0. subst x0. cbn [app].
    destruct (entries_spaced _ true Expanded _ SD x1 pstart A1 eq_refl) as [body [Sp E]].
    rewrite MF in Sp. exists body. split; [exact Sp|]. rewrite run_exec, E.
    cbn [fst snd flush held_steps flat_map print_steps]. rewrite app_nil_r. reflexivity.
Qed.

Lemma root_spaced r out :
  root_shaped r -> r_exprs r <> [] ->
  n_lead (r_notes r) = [] -> n_dang (r_notes r) = [] -> n_trail (r_notes r) = [] ->
  prints (root_doc o pc r) out ->
  exists body, spaced (fun _ => shows_stmt o true) 2 (r_exprs r) body /\
    out = match r_bom r with Some t => [PWord (WTok (norm_token t))] | None => [] end
          ++ body ++ [PNewline].
Proof.
  apply root_spaced_by. intros last e _ S1 S2. apply (fmt_stmt_doc last _ true); [exact S1|exact S2|repeat split].
Qed.

Lemma braces_spaced_by (shows : bool -> expr -> list piece -> Prop) r out p n es :
  (forall last e anc, In e es -> sort_of e = SoExpr -> shaped e -> agree anc (p_stmt (negb last)) ->
     stmt_doc shows last e (fmt o pc anc fo0 e)) ->
  root_shaped r -> in_file o r p (EBraced n es) -> ~ skip_asked o p (EBraced n es) ->
  es <> [] -> ~ curly_curly es ->
  prints (root_doc o pc r) out ->
  exists pre a body post,
    out = pre ++ PWord (WTok tLCURLY) :: a ++ PNewline :: body ++
            PNewline :: PWord (WTok tRCURLY) :: post /\
    Forall remark a /\ spaced shows 1 es body.
Proof.
  intros Docs Sh I NS Ne NC [os [L ->]].
  destruct (in_file_segment o pc r p _ os Sh I L)
    as [anc [fo [m [pre [os' [post [A [_ [G ->]]]]]]]]].
  pose proof (in_file_shaped o r p _ Sh I) as [Shs _].
  cbn [fmt] in G. unfold node_rule in G.
  destruct (suppressed o anc (EBraced n es)) eqn:ES.
  { destruct NS. exact (suppressed_asked o anc _ p (proj1 (proj2 A)) ES). }
  split_lay G. split_lay G. split_lay G. split_lay G. lay_nil G.
  cbn [glay] in A2. subst x1. rewrite app_nil_r. cbn [app].
  assert (EV : variant_of anc n es = BNotEmpty).
  { unfold variant_of. destruct es as [|e0 [|e1 es]]; [contradiction| |].
    - destruct e0 as [| | | | | | | | | | | | | |n0 es0| | | | |]; try reflexivity.
      destruct es0 as [|[n1 k1 ts1| | | | | | | | | | | | | | | | | | |] [|? ?]]; try reflexivity.
      destruct NC. exists n0, n1, k1, ts1. reflexivity.
    - destruct e0 as [| | | | | | | | | | | | | |n0 es0| | | | |]; try reflexivity.
      destruct es0 as [|[] [|? ?]]; reflexivity. }
  rewrite EV in A1. unfold rule_braced, in_braces in A1.
  set (docs := (fix go (l : list expr) : list (expr * doc) :=
         match l with
         | [] => []
         | x :: r => (x, fmt o pc (FBracedList (is_last r) :: anc) fo0 x) :: go r
         end) es) in *.
  assert (SD : stmt_docs shows docs /\ map fst docs = es).
  { subst docs. cbn [shaped] in Shs. clear - Ne Shs A Cp Docs.
    induction es as [|e es IH]; [contradiction|]. destruct Shs as [[S1 S2] Shs].
    assert (Ok : stmt_doc shows (is_last es) e
      (fmt o pc (FBracedList (is_last es) :: anc) fo0 e)).
    { apply Docs; [left; reflexivity|exact S1|exact S2|]. repeat split; destruct es; reflexivity. }
    destruct es as [|e' es]; [split; [constructor; exact Ok|reflexivity]|].
    destruct (IH ltac:(intros; apply Docs; auto; right; assumption) ltac:(discriminate) Shs) as [I1 I2]. split.
    - constructor; [exact Ok|exact I1].
    - cbn [map fst]. f_equal. exact I2. }
  destruct SD as [SD MF]. unfold rule_expression_list in A1. clearbody docs.
  split_lay A1. split_lay A1. split_lay A1. lay_nil A1. rewrite app_nil_r.
  unfold block_indent in A4. destruct (is_nil (join_entries false true docs)) eqn:EN.
  { exfalso. pose proof (is_nil_glay_nil _ EN m) as Z.
    destruct (entries_spaced _ false m docs SD [] pstart Z eq_refl) as [body [Sp E]].
    cbn in E. destruct body; discriminate. }
  destruct A4 as [y1 [y2 [[z1 [z2 [Z1 [Z2 ->]]]] [[z3 [z4 [Z3 [Z4 ->]]]] ->]]]].
  cbn in Z4. cbn [glay] in Z1, Z3. cbn [glay token_doc] in A2, A5. subst x1 x3 z1 z3 z4.
  assert (EQ : pre ++ (x ++ ([OStep (SWord (WTok (norm_token tLCURLY)))] ++
     (([OStep (SLine false)] ++ z2) ++ [OStep (SLine false)] ++ []) ++
     [OStep (SWord (WTok (norm_token tRCURLY)))]) ++ x2) ++ post
     = (pre ++ x) ++ [OStep (SWord (WTok (norm_token tLCURLY))); OStep (SLine false)] ++
       (z2 ++ [OStep (SLine false)]) ++ OStep (SWord (WTok (norm_token tRCURLY))) :: (x2 ++ post))
    by (cbn [app]; rewrite <- ?app_assoc; cbn [app]; rewrite <- ?app_assoc; reflexivity).
  rewrite EQ. clear EQ. rewrite run_exec, exec_app.
  destruct (exec (pstart, []) (pre ++ x)) as [o1 [s1 h1]]. rewrite exec_app.
  destruct (held_on_line h1) as [a [Ha Ra]].
  assert (E1 : exec (s1, h1) [OStep (SWord (WTok (norm_token tLCURLY))); OStep (SLine false)] =
    ((if p_space s1 then [PSpace] else []) ++ PWord (WTok tLCURLY) :: a ++ [PNewline],
     (off_line_st false, []))).
  { cbn [exec print_step fst snd]. unfold flush. cbn [fst snd].
    change {| p_line := true; p_space := false; p_empty := false |} with on_line_st. rewrite Ha.
    cbn [print_step on_line_st p_line p_empty andb app]. rewrite <- app_assoc. reflexivity. }
  rewrite E1, exec_app.
  destruct (entries_spaced _ false m docs SD z2 (off_line_st false) Z2 eq_refl) as [body [Sp E]].
  rewrite E. cbn [exec print_step fst snd off_line_st p_space app].
  match goal with |- context [exec ?s (x2 ++ post)] => destruct (exec s (x2 ++ post)) as [o3 s3] end.
  cbn [fst snd].
  exists (o1 ++ (if p_space s1 then [PSpace] else [])), a, body, (o3 ++ fst (flush s3)).
  split; [|split; [exact Ra|exact Sp]].
  rewrite <- !app_assoc. cbn [app]. rewrite <- !app_assoc. cbn [app]. reflexivity.
Qed.
Lemma braces_spaced r out p n es :
  root_shaped r -> in_file o r p (EBraced n es) -> ~ skip_asked o p (EBraced n es) ->
  es <> [] -> ~ curly_curly es ->
  prints (root_doc o pc r) out ->
  exists pre a body post,
    out = pre ++ PWord (WTok tLCURLY) :: a ++ PNewline :: body ++
            PNewline :: PWord (WTok tRCURLY) :: post /\
    Forall remark a /\ spaced (fun last => shows_stmt o (negb last)) 1 es body.
Proof.
  apply braces_spaced_by. intros last e anc _ S1 S2 A m os st br L Sp.
  exact (fmt_stmt_doc last anc (negb last) e S1 S2 A m os st br L Sp).
Qed.
End Files.
