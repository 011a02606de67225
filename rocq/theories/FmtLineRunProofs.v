(** Reading a layout, and reading what is printed of it (C39). *)
From Coq Require Import List Arith Bool NArith Lia.
From Verif Require Import Text SettingsModel SyntaxKind FmtTree IrModel FmtModel FmtSpec RReadSpec
  FmtLineSpec FmtProofs FmtRunProofs FmtListProofs.
Import ListNotations.

(** * Reading operations *)

Definition see_step (st : reader) (s : step) : list (token * bool) * reader :=
  match s with
  | SWord w => see_word st w
  | SSpace => ([], st)
  | SLine _ => ([], see_newline st)
  end.
Definition see_op (st : reader) (x : op) : list (token * bool) * reader :=
  match x with OStep s => see_step st s | OSuffix _ _ => ([], st) end.
Fixpoint lexs (st : reader) (ss : list step) : list (token * bool) * reader :=
  match ss with
  | [] => ([], st)
  | s :: r =>
    let '(a, st1) := see_step st s in
    let '(b, st2) := lexs st1 r in
    (a ++ b, st2)
  end.
Fixpoint lexo (st : reader) (os : list op) : list (token * bool) * reader :=
  match os with
  | [] => ([], st)
  | x :: r =>
    let '(a, st1) := see_op st x in
    let '(b, st2) := lexo st1 r in
    (a ++ b, st2)
  end.

(** What may be copied where. *)
Class copy_rule := may_copy : context -> expr -> Prop.

Section Copies.
Context {G : copy_rule}.

Definition copy_word (st : reader) (w : word) : Prop :=
  match w with
  | WVerb e => rd_header st = false /\ may_copy (context_of (rd_stack st)) e
  | _ => True
  end.
Definition copy_step (st : reader) (s : step) : Prop :=
  match s with SWord w => copy_word st w | _ => True end.
Definition copy_op (st : reader) (x : op) : Prop :=
  match x with OStep s => copy_step st s | OSuffix _ _ => True end.
Definition copy_piece (st : reader) (x : piece) : Prop :=
  match x with PWord w => copy_word st w | _ => True end.
Fixpoint copies {A : Type} (ok : reader -> A -> Prop)
  (step : reader -> A -> list (token * bool) * reader) (st : reader) (l : list A) : Prop :=
  match l with
  | [] => True
  | x :: r => ok st x /\ copies ok step (snd (step st x)) r
  end.
Lemma copies_app {A} (ok : reader -> A -> Prop) step a b : forall st,
  copies ok step st (a ++ b) <->
  copies ok step st a /\
  copies ok step (fold_left (fun s x => snd (step s x)) a st) b.
Proof.
  induction a as [|x a IH]; intros st; cbn [app copies fold_left]; [tauto|]. rewrite IH. tauto.
Qed.
Lemma lexo_fold os : forall st, snd (lexo st os) = fold_left (fun s x => snd (see_op s x)) os st.
Proof.
  induction os as [|x os IH]; intros st; [reflexivity|]. cbn [lexo fold_left].
  destruct (see_op st x) as [u s1]. cbn [snd]. rewrite <- IH. destruct (lexo s1 os). reflexivity.
Qed.

Definition reads (st : reader) (os : list op) (l : list (token * bool)) (st' : reader) : Prop :=
  lexo st os = (l, st') /\ copies copy_op see_op st os.

Lemma lexo_app os : forall st os' a st1 b st2,
  lexo st os = (a, st1) -> lexo st1 os' = (b, st2) -> lexo st (os ++ os') = (a ++ b, st2).
Proof.
  induction os as [|x os IH]; intros st os' a st1 b st2 A B.
  - cbn [lexo] in A. injection A as <- <-. exact B.
  - cbn [lexo app] in A |- *. destruct (see_op st x) as [u s1].
    destruct (lexo s1 os) as [v s2] eqn:E. injection A as <- <-.
    rewrite (IH _ _ _ _ _ _ E B), app_assoc. reflexivity.
Qed.
Lemma reads_app st st1 st2 os os' a b :
  reads st os a st1 -> reads st1 os' b st2 -> reads st (os ++ os') (a ++ b) st2.
Proof.
  intros [A C] [B D]. split; [exact (lexo_app _ _ _ _ _ _ _ A B)|].
  apply copies_app. split; [exact C|]. rewrite <- lexo_fold, A. exact D.
Qed.
Lemma reads_nil st : reads st [] [] st.
Proof. split; [reflexivity|exact I]. Qed.
Lemma reads_one st x l st' : see_op st x = (l, st') -> copy_op st x -> reads st [x] l st'.
Proof. intros E C. split; [cbn [lexo]; rewrite E, app_nil_r; reflexivity|exact (conj C I)]. Qed.
Lemma reads_cons st x a st1 os b st2 : see_op st x = (a, st1) -> copy_op st x -> reads st1 os b st2 ->
  reads st (x :: os) (a ++ b) st2.
Proof. intros E C. exact (reads_app st st1 st2 [x] os a b (reads_one st x a st1 E C)). Qed.
Lemma reads_eq st os a a' st1 st1' :
  reads st os a st1 -> a = a' -> st1 = st1' -> reads st os a' st1'.
Proof. intros H -> ->. exact H. Qed.
Lemma reads_skip_l st st2 os os' b :
  reads st os [] st -> reads st os' b st2 -> reads st (os ++ os') b st2.
Proof. intros A B. exact (reads_app st st st2 os os' [] b A B). Qed.
Lemma reads_skip_r st st2 os os' b :
  reads st os b st2 -> reads st2 os' [] st2 -> reads st (os ++ os') b st2.
Proof. intros A B. rewrite <- (app_nil_r b). exact (reads_app st st2 st2 os os' b [] A B). Qed.

(** * Line breaks that do not matter *)

Definition ready (st : reader) : Prop := rd_eats st || rd_broken st = true.

Lemma see_newline_ready st : ready st -> see_newline st = st.
Proof.
  destruct st as [s e b h]. unfold ready, see_newline. cbn.
  destruct e, b; intros H; try discriminate; reflexivity.
Qed.
Lemma ready_newline st : ready (see_newline st).
Proof. destruct st as [s e b h]. unfold ready. cbn. destruct e, b; reflexivity. Qed.
Lemma see_newline_twice st : see_newline (see_newline st) = see_newline st.
Proof. apply see_newline_ready, ready_newline. Qed.

(** Operations without tokens. *)
Definition quiet_op (x : op) : Prop :=
  match x with OStep (SWord (WTok _)) | OStep (SWord (WVerb _)) => False | _ => True end.
Definition quiet (os : list op) : Prop := Forall quiet_op os.

Lemma quiet_nil : quiet [].
Proof. constructor. Qed.
Lemma quiet_app a b : quiet a -> quiet b -> quiet (a ++ b).
Proof. intros A B. apply Forall_app. split; assumption. Qed.

Lemma quiet_copies st x : quiet_op x -> copy_op st x.
Proof. destruct x as [[[]| |]|]; intros Q; try exact I; contradiction. Qed.
Lemma quiet_ready st os : quiet os -> ready st -> reads st os [] st.
Proof.
  intros Q R. induction Q as [|x os X Q IH]; [apply reads_nil|].
  assert (E : see_op st x = ([], st)).
  { destruct x as [[w| |e]|g c]; cbn [see_op see_step]; try reflexivity.
    - destruct w; try contradiction; try reflexivity. cbn [see_word].
      rewrite (see_newline_ready st R). reflexivity.
    - rewrite (see_newline_ready st R). reflexivity. }
  exact (reads_cons st x [] st os [] st E (quiet_copies st x X) IH).
Qed.
(** In any case they leave the state or note a line break. *)
Lemma quiet_any st os : quiet os -> reads st os [] st \/ reads st os [] (see_newline st).
Proof.
  intros Q. induction Q as [|x os X Q IH]; [left; apply reads_nil|].
  assert (E : see_op st x = ([], st) \/ see_op st x = ([], see_newline st)).
  { destruct x as [[w| |e]|g c]; cbn [see_op see_step]; auto.
    destruct w; try contradiction; auto. }
  pose proof (quiet_copies st x X) as Cx. destruct E as [E|E].
  - destruct IH as [IH|IH]; [left|right]; exact (reads_cons st x [] st os [] _ E Cx IH).
  - right. refine (reads_cons st x [] _ os [] _ E Cx _).
    exact (quiet_ready (see_newline st) os Q (ready_newline st)).
Qed.

(** * What is printed reads like the layout *)

Lemma scan_app a : forall st b l1 st1 l2 st2,
  scan st a = (l1, st1) -> scan st1 b = (l2, st2) -> scan st (a ++ b) = (l1 ++ l2, st2).
Proof.
  induction a as [|x a IH]; intros st b l1 st1 l2 st2 A B.
  - cbn [scan] in A. injection A as <- <-. exact B.
  - cbn [scan app] in A |- *. destruct (see st x) as [u s1].
    destruct (scan s1 a) as [v s2] eqn:E. injection A as <- <-.
    rewrite (IH _ _ _ _ _ _ E B), app_assoc. reflexivity.
Qed.

Lemma scan_fold ps : forall st, snd (scan st ps) = fold_left (fun s x => snd (see s x)) ps st.
Proof.
  induction ps as [|x ps IH]; intros st; [reflexivity|]. cbn [scan fold_left].
  destruct (see st x) as [u s1]. cbn [snd]. rewrite <- IH. destruct (scan s1 ps). reflexivity.
Qed.
Lemma quiet_pieces ps : Forall (fun x => match x with PWord (WVerb _) => False | _ => True end) ps ->
  forall st, copies copy_piece see st ps.
Proof.
  induction 1 as [|x ps X F IH]; intros st; [exact I|]. split; [|apply IH].
  destruct x as [[]| |]; try exact I. contradiction.
Qed.
Lemma print_step_reads p st s :
  (p_line p = false -> ready st) ->
  scan st (fst (print_step p s)) = see_step st s /\
  (copy_step st s -> copies copy_piece see st (fst (print_step p s))) /\
  (p_line (snd (print_step p s)) = false -> ready (snd (see_step st s))).
Proof.
  intros I. destruct s as [w| |e]; cbn [print_step fst snd].
  - split; [|split].
    + assert (E : scan st [match w with WBreak => PNewline | _ => PWord w end] = see_word st w).
      { destruct w; cbn [scan see]; try reflexivity;
          destruct (see_word st _); rewrite app_nil_r; reflexivity. }
      destruct (p_space p); [|exact E].
      cbn [see_step]. destruct (see_word st w) as [l1 st1].
      exact (scan_app [PSpace] st _ [] st l1 st1 eq_refl E).
    + intros C. assert (E : copies copy_piece see st [match w with WBreak => PNewline | _ => PWord w end])
        by (destruct w; exact (conj C Logic.I)).
      destruct (p_space p); [exact (conj Logic.I E)|exact E].
    + cbn [p_line]. destruct w; try discriminate. intros _. apply ready_newline.
  - split; [reflexivity|]. split; [intros _; exact Logic.I|]. exact I.
  - assert (E : scan st (if p_line p then [PNewline] else []) = ([], see_newline st)).
    { destruct (p_line p); [reflexivity|]. rewrite (see_newline_ready st (I eq_refl)). reflexivity. }
    cbn [see_step]. destruct (e && _); cbn [fst snd].
    + split; [|split; [|intros _; apply ready_newline]].
      * rewrite (scan_app _ _ [PNewline] _ _ [] (see_newline st) E); [reflexivity|].
        cbn [scan see app]. rewrite see_newline_twice. reflexivity.
      * intros _. apply quiet_pieces. destruct (p_line p); repeat constructor.
    + split; [exact E|]. split; [|intros _; apply ready_newline].
      intros _. apply quiet_pieces. destruct (p_line p); repeat constructor.
Qed.

Lemma print_steps_reads ss : forall p st,
  (p_line p = false -> ready st) -> scan st (fst (print_steps p ss)) = lexs st ss /\
  (copies copy_step see_step st ss -> copies copy_piece see st (fst (print_steps p ss))).
Proof.
  induction ss as [|s ss IH]; intros p st I; [split; [reflexivity|exact (fun H => H)]|].
  cbn [print_steps lexs copies]. destruct (print_step_reads p st s I) as [A [A' B]].
  destruct (print_step p s) as [o1 p1]. cbn [fst snd] in A, A', B.
  destruct (see_step st s) as [a st1]. cbn [snd] in B |- *. specialize (IH p1 st1 B).
  destruct (print_steps p1 ss) as [o2 p2]. cbn [fst] in IH |- *. destruct IH as [IH1 IH2].
  destruct (lexs st1 ss) as [b st2]. split; [exact (scan_app _ _ _ _ _ _ _ A IH1)|].
  intros [C1 C2]. apply copies_app. split; [exact (A' C1)|]. rewrite <- scan_fold, A. exact (IH2 C2).
Qed.

Lemma lexs_app a : forall st b l1 st1 l2 st2,
  lexs st a = (l1, st1) -> lexs st1 b = (l2, st2) -> lexs st (a ++ b) = (l1 ++ l2, st2).
Proof.
  induction a as [|x a IH]; intros st b l1 st1 l2 st2 A B.
  - cbn [lexs] in A. injection A as <- <-. exact B.
  - cbn [lexs app] in A |- *. destruct (see_step st x) as [u s1].
    destruct (lexs s1 a) as [v s2] eqn:E. injection A as <- <-.
    rewrite (IH _ _ _ _ _ _ E B), app_assoc. reflexivity.
Qed.

Lemma held_reads held : forall st,
  lexs st (held_steps held) = ([], st) \/ lexs st (held_steps held) = ([], see_newline st).
Proof.
  unfold held_steps. induction held as [|[g c] held IH]; intros st; [left; reflexivity|].
  cbn [flat_map app lexs]. destruct g as [|e]; cbn [gap_step see_step see_word].
  - destruct (IH st) as [E|E]; rewrite E; auto.
  - right. destruct (IH (see_newline st)) as [E|E]; rewrite E; [reflexivity|].
    rewrite see_newline_twice. reflexivity.
Qed.

Lemma lexs_fold ss : forall st, snd (lexs st ss) = fold_left (fun s x => snd (see_step s x)) ss st.
Proof.
  induction ss as [|x ss IH]; intros st; [reflexivity|]. cbn [lexs fold_left].
  destruct (see_step st x) as [u s1]. cbn [snd]. rewrite <- IH. destruct (lexs s1 ss). reflexivity.
Qed.
Lemma held_copies held : forall st, copies copy_step see_step st (held_steps held).
Proof.
  unfold held_steps. induction held as [|[g c] held IH]; intros st; [exact I|].
  cbn [flat_map app copies]. destruct g; exact (conj I (conj I (IH _))).
Qed.
Lemma unsuffix_reads os : forall held st l st',
  lexo st os = (l, st') ->
  (copies copy_op see_op st os -> copies copy_step see_step st (unsuffix held os)) /\
  (lexs st (unsuffix held os) = (l, st') \/ lexs st (unsuffix held os) = (l, see_newline st')).
Proof.
  induction os as [|x os IH]; intros held st l st' H.
  - cbn [lexo] in H. injection H as <- <-. cbn [unsuffix]. split; [|apply held_reads].
    intros _. apply held_copies.
  - cbn [lexo copies] in H |- *. destruct x as [s|g c].
    + cbn [see_op copy_op] in H |- *. destruct s as [w| |e]; cbn [unsuffix].
      * cbn [lexs copies]. destruct (see_step st (SWord w)) as [a st1]. cbn [snd].
        destruct (lexo st1 os) as [b st2] eqn:E. injection H as <- <-.
        destruct (IH held _ _ _ E) as [C F]. split; [tauto|]. destruct F as [F|F]; rewrite F; auto.
      * cbn [lexs see_step copies snd copy_step] in H |- *.
        destruct (lexo st os) as [b st2] eqn:E. injection H as <- <-.
        destruct (IH held _ _ _ E) as [C F]. split; [tauto|]. destruct F as [F|F]; rewrite F; auto.
      * cbn [see_step snd] in H |- *. destruct (lexo (see_newline st) os) as [b st2] eqn:E.
        injection H as <- <-. cbn [app].
        assert (T : forall r, lexs (see_newline st) (unsuffix [] os) = r ->
          lexs st (held_steps held ++ SLine e :: unsuffix [] os) = r).
        { intros [r1 r2] F. destruct (held_reads held st) as [G0|G0];
            (rewrite (lexs_app _ _ _ _ _ r1 r2 G0); [reflexivity|]); cbn [lexs see_step].
          - rewrite F. reflexivity.
          - rewrite see_newline_twice, F. reflexivity. }
        destruct (IH [] _ _ _ E) as [C F]. split.
        -- intros [_ Co]. apply copies_app. split; [apply held_copies|].
           rewrite <- lexs_fold. split; [exact I|]. cbn [see_step snd].
           destruct (held_reads held st) as [G0|G0]; rewrite G0; cbn [snd];
             [|rewrite see_newline_twice]; exact (C Co).
        -- destruct F as [F|F]; [left|right]; exact (T _ F).
    + cbn [see_op unsuffix snd] in H |- *. destruct (lexo st os) as [b st2] eqn:E.
      injection H as <- <-. destruct (IH (held ++ [(g, c)]) _ _ _ E) as [C F].
      split; [tauto|exact F].
Qed.

Theorem run_reads st os l st' :
  ready st -> reads st os l st' ->
  copies copy_piece see st (run os) /\
  (scan st (run os) = (l, st') \/ scan st (run os) = (l, see_newline st')).
Proof.
  intros R [H C]. unfold run. destruct (print_steps_reads (unsuffix [] os) pstart st (fun _ => R)) as [A B].
  rewrite A. destruct (unsuffix_reads os [] st l st' H) as [D E]. auto.
Qed.

(** * States *)

Definition going (s : list delim) : reader :=
  {| rd_stack := s; rd_eats := true; rd_broken := false; rd_header := false |}.
Definition heading (s : list delim) : reader :=
  {| rd_stack := s; rd_eats := true; rd_broken := false; rd_header := true |}.

Lemma going_rest s : enclosed s = true -> going s = at_rest s.
Proof. intros E. unfold going, at_rest. rewrite E. reflexivity. Qed.
Lemma ready_going s : ready (going s).
Proof. reflexivity. Qed.
Lemma ready_heading s : ready (heading s).
Proof. reflexivity. Qed.
Lemma ready_rest s : enclosed s = true -> ready (at_rest s).
Proof. intros E. unfold ready, at_rest. cbn. rewrite E. reflexivity. Qed.

(** * Flags *)

Lemma flag_false l : flag false l = l.
Proof. destruct l as [|[t f] l]; reflexivity. Qed.
Lemma flag_app b x y : x <> [] -> flag b (x ++ y) = flag b x ++ y.
Proof. destruct x as [|[t f] x]; [contradiction|reflexivity]. Qed.

(** * Tokens *)

Lemma norm_token_kind t : t_kind (norm_token t) = t_kind t.
Proof.
  unfold norm_token. destruct (kind_eqb (t_kind t) STRING_CONTENT) eqn:E; [|reflexivity].
  apply kind_eqb_eq in E. symmetry. exact E.
Qed.
Lemma norm_token_role r t : has_role r t -> has_role r (norm_token t).
Proof. unfold has_role. rewrite norm_token_kind. exact (fun H => H). Qed.

Lemma token_reads m t os st :
  glay m (token_doc t) os ->
  match role_of (t_kind t) with
  | RoMark => reads st os [] st
  | RoCloseCurly => reads st os [(norm_token t, false)] (after_role RoCloseCurly st)
  | r => reads st os [(norm_token t, rd_broken st)] (after_role r st)
  end.
Proof.
  unfold token_doc. cbn [glay]. intros ->.
  assert (R : forall l st', see_token st (norm_token t) = (l, st') ->
    reads st [OStep (SWord (WTok (norm_token t)))] l st')
    by (intros l st' E; exact (reads_one st (OStep (SWord (WTok (norm_token t)))) l st' E I)).
  unfold see_token in R. rewrite norm_token_kind in R.
  destruct (role_of (t_kind t)); apply R; reflexivity.
Qed.

Lemma plain_reads m t os st :
  has_role RoPlain t -> glay m (token_doc t) os ->
  reads st os [(norm_token t, rd_broken st)] (at_rest (rd_stack st)).
Proof. intros R H. apply (token_reads m t os st) in H. rewrite R in H. exact H. Qed.
Lemma continues_reads m t os st :
  has_role RoContinues t -> glay m (token_doc t) os ->
  reads st os [(norm_token t, rd_broken st)] (going (rd_stack st)).
Proof. intros R H. apply (token_reads m t os st) in H. rewrite R in H. exact H. Qed.
Lemma header_reads m t os st :
  has_role RoHeader t -> glay m (token_doc t) os ->
  reads st os [(norm_token t, rd_broken st)] (heading (rd_stack st)).
Proof. intros R H. apply (token_reads m t os st) in H. rewrite R in H. exact H. Qed.
Lemma lparen_reads m os st :
  rd_header st = false -> glay m (token_doc tLPAREN) os ->
  reads st os [(tLPAREN, rd_broken st)] (at_rest (DRound :: rd_stack st)).
Proof.
  intros E H. apply (token_reads m tLPAREN os st) in H. cbn [role_of t_kind tLPAREN tk] in H.
  unfold after_role in H. rewrite E in H. exact H.
Qed.
Lemma lhead_reads m os s :
  glay m (token_doc tLPAREN) os ->
  reads (heading s) os [inline tLPAREN] (at_rest (DHead :: s)).
Proof. intros H. exact (token_reads m tLPAREN os (heading s) H). Qed.
Lemma rhead_reads m os s :
  glay m (token_doc tRPAREN) os ->
  reads (at_rest (DHead :: s)) os [inline tRPAREN] (going s).
Proof. intros H. exact (token_reads m tRPAREN os (at_rest (DHead :: s)) H). Qed.
Lemma rparen_reads m os s :
  glay m (token_doc tRPAREN) os ->
  reads (at_rest (DRound :: s)) os [inline tRPAREN] (at_rest s).
Proof. intros H. exact (token_reads m tRPAREN os (at_rest (DRound :: s)) H). Qed.
Lemma open_reads m k os st :
  rd_header st = false -> glay m (token_doc (l_token k)) os ->
  reads st os [(l_token k, rd_broken st)] (at_rest (DRound :: rd_stack st)).
Proof.
  intros E H. destruct k; [exact (lparen_reads m os st E H)|..].
  - exact (token_reads m tLBRACK os st H).
  - exact (token_reads m tLBRACK2 os st H).
Qed.
Lemma close_reads m k os s :
  glay m (token_doc (r_token k)) os ->
  reads (at_rest (DRound :: s)) os [inline (r_token k)] (at_rest s).
Proof.
  intros H. destruct k; [exact (rparen_reads m os s H)|..].
  - exact (token_reads m tRBRACK os _ H).
  - exact (token_reads m tRBRACK2 os _ H).
Qed.
Lemma lcurly_reads m os st :
  glay m (token_doc tLCURLY) os ->
  reads st os [(tLCURLY, rd_broken st)] (going (DCurly :: rd_stack st)).
Proof. exact (token_reads m tLCURLY os st). Qed.
Lemma rcurly_reads m os st s :
  rd_stack st = DCurly :: s -> glay m (token_doc tRCURLY) os ->
  reads st os [inline tRCURLY] (at_rest s).
Proof.
  intros E H. apply (token_reads m tRCURLY os st) in H. cbn [role_of t_kind tRCURLY tk] in H.
  unfold after_role in H. rewrite E in H. exact H.
Qed.
Lemma comma_reads m os s :
  glay m (token_doc tCOMMA) os -> reads (at_rest s) os [inline tCOMMA] (at_rest s).
Proof. exact (token_reads m tCOMMA os (at_rest s)). Qed.

Lemma tokens_read m ts : forall os st,
  ts <> [] -> all_of (has_role RoPlain) ts -> glay m (cat (map token_doc ts)) os ->
  reads st os (flag (rd_broken st) (map inline (map norm_token ts))) (at_rest (rd_stack st)).
Proof.
  induction ts as [|t ts IH]; intros os st Ne P H; [contradiction|].
  destruct P as [P1 P2]. cbn [map] in H. split_lay H.
  apply (plain_reads m t x st P1) in A. cbn [map flag inline]. rewrite orb_false_r.
  destruct ts as [|t' ts].
  - cbn [map cat glay] in H. subst y. rewrite app_nil_r. exact A.
  - refine (reads_app _ _ _ _ _ [_] _ A _).
    pose proof (IH y (at_rest (rd_stack st)) ltac:(discriminate) P2 H) as B.
    cbn [rd_broken rd_stack at_rest] in B. rewrite flag_false in B. exact B.
Qed.

(** * Spaces, line breaks, comments *)

Lemma space_reads m os st : glay m DSpace os -> reads st os [] st.
Proof. cbn [glay]. intros ->. apply reads_one; [reflexivity|exact I]. Qed.
Lemma maybe_space_reads m b os st : glay m (maybe_space b) os -> reads st os [] st.
Proof.
  destruct b; cbn [maybe_space glay]; intros ->; [apply reads_one; [reflexivity|exact I]|apply reads_nil].
Qed.
Lemma line_quiet m l os : glay m (DLine l) os -> quiet os.
Proof. destruct l, m; cbn [glay]; intros ->; repeat constructor. Qed.
Lemma space_quiet m os : glay m DSpace os -> quiet os.
Proof. cbn [glay]. intros ->. repeat constructor. Qed.
Lemma maybe_space_quiet m b os : glay m (maybe_space b) os -> quiet os.
Proof. destruct b; cbn [maybe_space glay]; intros ->; repeat constructor. Qed.

Lemma between_quiet m l d os :
  glay m (if is_nil d then DNil else cat [DIndent (DCat (DLine l) d); DLine l]) os ->
  exists x u y, quiet x /\ glay m d u /\ quiet y /\ os = x ++ u ++ y.
Proof.
  destruct (is_nil d) eqn:E.
  - intros H. exists [], [], []. cbn [glay] in H. subst os.
    split; [constructor|]. split; [apply is_nil_glay_nil, E|]. split; [constructor|reflexivity].
  - intros [x [y [[a [b [A [B ->]]]] [[u [v [C [D ->]]]] ->]]]].
    exists a, b, (u ++ v). split; [exact (line_quiet _ _ _ A)|]. split; [exact B|]. split.
    + apply quiet_app; [exact (line_quiet _ _ _ C)|]. cbn [glay cat] in D. subst v. constructor.
    + rewrite <- app_assoc. reflexivity.
Qed.
Lemma block_quiet m d os :
  glay m (block_indent d) os ->
  exists x u y, quiet x /\ glay m d u /\ quiet y /\ os = x ++ u ++ y.
Proof. apply between_quiet. Qed.
Lemma soft_block_quiet m d os :
  glay m (soft_block_indent d) os ->
  exists x u y, quiet x /\ glay m d u /\ quiet y /\ os = x ++ u ++ y.
Proof. apply between_quiet. Qed.
Lemma soft_space_quiet m d os :
  glay m (soft_space_or_block_indent d) os ->
  exists x u y, quiet x /\ glay m d u /\ quiet y /\ os = x ++ u ++ y.
Proof. apply between_quiet. Qed.
Lemma soft_block_flat d os : glay Flat (soft_block_indent d) os -> glay Flat d os.
Proof.
  unfold soft_block_indent. destruct (is_nil d) eqn:E.
  - cbn [glay]. intros ->. apply is_nil_glay_nil, E.
  - intros [x [y [[a [b [-> [B ->]]]] [[u [v [-> [-> ->]]]] ->]]]].
    rewrite !app_nil_r. exact B.
Qed.

Lemma leading_quiet m cs : forall os, glay m (leading_comments cs) os -> quiet os.
Proof.
  unfold leading_comments. induction cs as [|c cs IH]; intros os H.
  - cbn [map cat glay] in H. subst os. constructor.
  - cbn [map] in H. split_lay H. apply quiet_app; [|exact (IH _ H)].
    split_lay A. split_lay A. lay_nil A. cbn [glay] in A0. subst.
    apply line_quiet in A1. constructor; [exact I|]. rewrite app_nil_r. exact A1.
Qed.
Lemma leading_reads m cs os st :
  ready st \/ cs = [] -> glay m (leading_comments cs) os -> reads st os [] st.
Proof.
  intros [R| ->] H; [exact (quiet_ready _ _ (leading_quiet _ _ _ H) R)|].
  cbn [leading_comments map cat glay] in H. subst os. apply reads_nil.
Qed.
Lemma trailing_from_reads m cs : forall lines os st,
  glay m (trailing_from lines cs) os -> reads st os [] st.
Proof.
  induction cs as [|c cs IH]; intros ln os st H.
  - cbn [trailing_from glay] in H. subst os. apply reads_nil.
  - cbn [trailing_from] in H.
    destruct H as [x [y [-> [[u [v [-> [[w [z [C [-> ->]]]] ->]]]] ->]]]].
    rewrite app_nil_r. refine (reads_skip_l _ _ [_] _ _ (reads_one st _ [] st _ _) (IH _ _ _ C));
      [reflexivity|exact I].
Qed.
Lemma trailing_reads m cs os st : glay m (trailing_comments cs) os -> reads st os [] st.
Proof. apply trailing_from_reads. Qed.
Lemma trailing_quiet m cs : forall lines os, glay m (trailing_from lines cs) os -> quiet os.
Proof.
  induction cs as [|c cs IH]; intros ln os H.
  - cbn [trailing_from glay] in H. subst os. constructor.
  - cbn [trailing_from] in H.
    destruct H as [x [y [-> [[u [v [-> [[w [z [C [-> ->]]]] ->]]]] ->]]]].
    rewrite app_nil_r. constructor; [exact I|]. exact (IH _ _ C).
Qed.
Lemma dangling_content_quiet m cs : forall os, glay m (dangling_content cs) os -> quiet os.
Proof.
  induction cs as [|c cs IH]; intros os H.
  - cbn [dangling_content glay] in H. subst os. constructor.
  - destruct cs as [|c' cs].
    + destruct H as [x [y [-> [[u [v [-> [-> ->]]]] ->]]]]. repeat constructor.
    + destruct H as [x [y [-> [[u [v [-> [[w [z [C [-> ->]]]] ->]]]] ->]]]].
      rewrite app_nil_r. constructor; [exact I|]. constructor; [exact I|]. exact (IH _ C).
Qed.
Lemma dangling_soft_quiet m cs os : glay m (dangling_soft cs) os -> quiet os.
Proof.
  destruct cs as [|c cs]; unfold dangling_soft; intros H.
  - cbn [glay] in H. subst os. constructor.
  - apply glay_group in H. destruct H as [m' H]. apply soft_block_quiet in H.
    destruct H as [x [u [y [X [U [Y ->]]]]]]. apply dangling_content_quiet in U.
    apply quiet_app; [exact X|]. apply quiet_app; assumption.
Qed.
Lemma dangling_block_quiet m cs os : glay m (dangling_block cs) os -> quiet os.
Proof.
  destruct cs as [|c cs]; unfold dangling_block; intros H.
  - cbn [glay] in H. subst os. constructor.
  - apply block_quiet in H.
    destruct H as [x [u [y [X [U [Y ->]]]]]]. apply dangling_content_quiet in U.
    apply quiet_app; [exact X|]. apply quiet_app; assumption.
Qed.
Lemma spaces_quiet m n os : glay m (TableModel.write_spaces n) os -> quiet os.
Proof. unfold TableModel.write_spaces. destruct (0 <? n); cbn [glay]; intros ->; repeat constructor. Qed.
Lemma entry_break_quiet double ln m os : glay m (entry_break double ln) os -> quiet os.
Proof.
  unfold entry_break. destruct double.
  - destruct (2 <? ln).
    + intros H. split_lay H. split_lay H. lay_nil H. cbn [glay] in A, A0. subst. repeat constructor.
    + destruct (ln =? 2); apply line_quiet.
  - destruct (1 <? ln); apply line_quiet.
Qed.
(** Between two expressions there is always a line break. *)
Lemma entry_break_reads double ln m os st :
  glay m (entry_break double ln) os -> reads st os [] (see_newline st).
Proof.
  assert (L : forall l, l = LHard \/ l = LEmpty -> glay m (DLine l) os ->
              reads st os [] (see_newline st)).
  { intros l [-> | ->]; cbn [glay]; intros ->; (apply reads_one; [reflexivity|exact I]). }
  unfold entry_break. destruct double.
  - destruct (2 <? ln).
    + intros H. split_lay H. split_lay H. lay_nil H. cbn [glay] in A, A0. subst.
      rewrite <- (see_newline_twice st).
      refine (reads_cons st _ [] (see_newline st) _ [] _ _ _ _); [reflexivity|exact I|].
      apply reads_one; [reflexivity|exact I].
    + destruct (ln =? 2); apply L; auto.
  - destruct (1 <? ln); apply L; auto.
Qed.

(** * Nodes *)

Lemma outside_nil cs : cs = [] -> outside cs = [].
Proof. intros ->. reflexivity. Qed.

Lemma verbatim_reads m e os st :
  copy_word st (WVerb e) -> ready st \/ n_lead (notes_of e) = [] -> glay m (verbatim e) os ->
  reads st os (flag (rd_broken st) (lines e)) (at_rest (rd_stack st)).
Proof.
  intros Cw R H. unfold verbatim in H. split_lay H. split_lay H. split_lay H. lay_nil H.
  apply (leading_reads _ _ _ st) in A.
  - refine (reads_skip_l _ _ _ _ _ A _). cbn [glay] in A0. subst.
    rewrite app_nil_r. refine (reads_skip_r _ _ _ _ _ _ (trailing_reads _ _ _ _ A1)).
    exact (reads_one st (OStep (SWord (WVerb e))) _ _ eq_refl Cw).
  - destruct R as [R|R]; [left; exact R|right; apply outside_nil, R].
Qed.

Section Node.
Variable o : format_options.

Definition showing (C : expr -> Prop) (st : reader) (os : list op) (st' : reader) : Prop :=
  exists e', C e' /\ reads st os (flag (rd_broken st) (lines e')) st'.

Lemma node_reads anc e fields dang (C : expr -> Prop) m os st st' :
  ready st \/ n_lead (notes_of e) = [] ->
  (suppressed o anc e = true -> C e /\ st' = at_rest (rd_stack st) /\ copy_word st (WVerb e)) ->
  (forall x, glay m dang x -> x = []) ->
  (suppressed o anc e = false -> forall f, glay m fields f -> showing C st f st') ->
  glay m (node_rule o anc e fields dang) os -> showing C st os st'.
Proof.
  unfold node_rule. intros R S D F H.
  destruct (suppressed o anc e) eqn:E.
  - destruct (S eq_refl) as [Ce [-> Cw]]. exists e. split; [exact Ce|].
    exact (verbatim_reads m e os st Cw R H).
  - split_lay H. split_lay H. split_lay H. split_lay H. lay_nil H.
    destruct (F eq_refl _ A0) as [e' [Ce Re]]. exists e'. split; [exact Ce|].
    rewrite (D _ A1). cbn [app]. rewrite app_nil_r.
    apply (reads_skip_l _ _ _ _ _ (leading_reads _ _ _ st R A)).
    exact (reads_skip_r _ _ _ _ _ Re (trailing_reads _ _ _ _ A2)).
Qed.
Lemma node_soft_reads anc e fields (C : expr -> Prop) m os st st' :
  ready st \/ n_lead (notes_of e) = [] ->
  n_dang (notes_of e) = [] ->
  (suppressed o anc e = true -> C e /\ st' = at_rest (rd_stack st) /\ copy_word st (WVerb e)) ->
  (suppressed o anc e = false -> forall f, glay m fields f -> showing C st f st') ->
  glay m (node_rule_soft o anc e fields) os -> showing C st os st'.
Proof.
  intros R Dg S F H. unfold node_rule_soft in H. rewrite Dg in H.
  refine (node_reads anc e fields (dangling_soft []) C m os st st' R S _ F H).
  intros x X. exact X.
Qed.
End Node.
End Copies.
