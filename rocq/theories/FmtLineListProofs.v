(** Reading lists of statements, parameters and arguments, and tables (C39). *)
From Coq Require Import List Arith Bool NArith Lia.
From Verif Require Import Text SettingsModel SyntaxKind FmtTree IrModel TableModel FmtModel
  FmtSpec FmtLineSpec FmtProofs FmtRunProofs FmtListProofs FmtLineRunProofs.
Import ListNotations.

(** * Statements *)

Section Statements.
Context {Cr : copy_rule}.
Variable stk : list delim.
Hypothesis Open : enclosed stk = false.

(** Read from wherever an expression may start. *)
Definition stmt_ok (R : expr -> expr -> Prop) (x : expr) (d : doc) : Prop :=
  forall m os st, rd_stack st = stk -> rd_header st = false -> ready st -> glay m d os ->
    exists x', R x x' /\ reads st os (flag (rd_broken st) (lines x')) (at_rest stk).

Lemma rest_newline : rd_broken (see_newline (at_rest stk)) = true.
Proof. cbn. rewrite Open. reflexivity. Qed.

(** All but the first, each after a line break. *)
Lemma later_entries (R : expr -> expr -> Prop) double m : forall l os,
  (forall x d, In (x, d) l -> stmt_ok R x d) ->
  glay m (join_entries double false l) os ->
  exists l', Forall2 R (map fst l) l' /\
    reads (at_rest stk) os (concat (map (flag true) (map lines l'))) (at_rest stk).
Proof.
  induction l as [|[x d] l IH]; intros os O H.
  - cbn [join_entries glay] in H. subst os. exists []. split; [constructor|apply reads_nil].
  - cbn [join_entries] in H. split_lay H. split_lay H. split_lay H. lay_nil H.
    apply (entry_break_reads _ _ _ _ (at_rest stk)) in A.
    destruct (O x d (or_introl eq_refl) _ _ (see_newline (at_rest stk)) eq_refl eq_refl
                (ready_newline _) A0) as [x' [Rx Ex]].
    rewrite rest_newline in Ex.
    destruct (IH _ (fun y e i => O y e (or_intror i)) A1) as [l' [Rl El]].
    exists (x' :: l'). split; [constructor; assumption|]. rewrite app_nil_r.
    refine (reads_app _ _ _ _ _ [] _ A _). exact (reads_app _ _ _ _ _ _ _ Ex El).
Qed.
Lemma entries_read (R : expr -> expr -> Prop) double m st l os :
  rd_stack st = stk -> rd_header st = false -> rd_broken st = false -> ready st -> l <> [] ->
  (forall x d, In (x, d) l -> stmt_ok R x d) ->
  glay m (join_entries double true l) os ->
  exists l', Forall2 R (map fst l) l' /\ reads st os (statements (map lines l')) (at_rest stk).
Proof.
  intros S1 S2 S3 S4 Ne O H. destruct l as [|[x d] l]; [contradiction|].
  cbn [join_entries] in H. split_lay H. split_lay H. split_lay H. lay_nil H.
  cbn [glay] in A. subst. cbn [app]. rewrite app_nil_r.
  destruct (O x d (or_introl eq_refl) _ _ st S1 S2 S4 A0) as [x' [Rx Ex]].
  rewrite S3, flag_false in Ex.
  destruct (later_entries R double m l _ (fun y e i => O y e (or_intror i)) A1) as [l' [Rl El]].
  exists (x' :: l'). split; [constructor; assumption|].
  cbn [map statements]. exact (reads_app _ _ _ _ _ _ _ Ex El).
Qed.

(** The elements of braces, the last one apart. *)
Lemma later_stmts (R : bool -> expr -> expr -> Prop) (f : bool -> expr -> doc) double m :
  forall l os,
  (forall b x, In x l -> stmt_ok (R b) x (f (negb b) x)) ->
  glay m (join_entries double false
    ((fix go (l : list expr) : list (expr * doc) :=
        match l with [] => [] | x :: r => (x, f (is_last r) x) :: go r end) l)) os ->
  exists l', stmts_rel R l l' /\
    reads (at_rest stk) os (concat (map (flag true) (map lines l'))) (at_rest stk).
Proof.
  induction l as [|x l IH]; intros os O H.
  - cbn [join_entries glay] in H. subst os. exists []. split; [constructor|apply reads_nil].
  - cbn [join_entries] in H. split_lay H. split_lay H. split_lay H. lay_nil H.
    apply (entry_break_reads _ _ _ _ (at_rest stk)) in A.
    assert (E : is_last l = negb (match l with [] => false | _ => true end))
      by (destruct l; reflexivity).
    rewrite E in A0.
    destruct (O _ x (or_introl eq_refl) _ _ (see_newline (at_rest stk)) eq_refl eq_refl
                (ready_newline _) A0) as [x' [Rx Ex]].
    rewrite rest_newline in Ex.
    destruct (IH _ (fun b y i => O b y (or_intror i)) A1) as [l' [Rl El]].
    exists (x' :: l'). split; [constructor; assumption|]. rewrite app_nil_r.
    refine (reads_app _ _ _ _ _ [] _ A _). exact (reads_app _ _ _ _ _ _ _ Ex El).
Qed.
Lemma stmts_read (R : bool -> expr -> expr -> Prop) (f : bool -> expr -> doc) double m st l os :
  rd_stack st = stk -> rd_header st = false -> rd_broken st = false -> ready st -> l <> [] ->
  (forall b x, In x l -> stmt_ok (R b) x (f (negb b) x)) ->
  glay m (join_entries double true
    ((fix go (l : list expr) : list (expr * doc) :=
        match l with [] => [] | x :: r => (x, f (is_last r) x) :: go r end) l)) os ->
  exists l', stmts_rel R l l' /\ reads st os (statements (map lines l')) (at_rest stk).
Proof.
  intros S1 S2 S3 S4 Ne O H. destruct l as [|x l]; [contradiction|].
  cbn [join_entries] in H. split_lay H. split_lay H. split_lay H. lay_nil H.
  cbn [glay] in A. subst. cbn [app]. rewrite app_nil_r.
  assert (E : is_last l = negb (match l with [] => false | _ => true end))
    by (destruct l; reflexivity).
  rewrite E in A0.
  destruct (O _ x (or_introl eq_refl) _ _ st S1 S2 S4 A0) as [x' [Rx Ex]].
  rewrite S3, flag_false in Ex.
  destruct (later_stmts R f double m l _ (fun b y i => O b y (or_intror i)) A1) as [l' [Rl El]].
  exists (x' :: l'). split; [constructor; assumption|].
  cbn [map statements]. exact (reads_app _ _ _ _ _ _ _ Ex El).
Qed.
End Statements.

(** * Inside parentheses and brackets *)

Section Enclosed.
Context {Cr : copy_rule}.
Variable stk : list delim.
Hypothesis Closed : enclosed stk = true.

Definition inner (os : list op) (l : list (token * bool)) : Prop :=
  reads (at_rest stk) os l (at_rest stk).

Lemma inner_app a b l l' : inner a l -> inner b l' -> inner (a ++ b) (l ++ l').
Proof. apply reads_app. Qed.
Lemma inner_quiet os : quiet os -> inner os [].
Proof. intros Q. apply (quiet_ready _ _ Q), ready_rest, Closed. Qed.
Lemma inner_quiet_l a b l : quiet a -> inner b l -> inner (a ++ b) l.
Proof. intros Q. apply reads_skip_l, inner_quiet, Q. Qed.
Lemma inner_quiet_r a b l : quiet b -> inner a l -> inner (a ++ b) l.
Proof. intros Q H. exact (reads_skip_r _ _ _ _ _ H (inner_quiet _ Q)). Qed.
Lemma inner_comma m os : glay m (token_doc tCOMMA) os -> inner os [inline tCOMMA].
Proof. apply comma_reads. Qed.
Lemma inner_newline : see_newline (at_rest stk) = at_rest stk.
Proof. apply see_newline_ready, ready_rest, Closed. Qed.

Definition shown (R : expr -> expr -> Prop) (x : expr) (d : doc) : Prop :=
  forall m os, glay m d os -> exists x', R x x' /\ inner os (lines x').

Lemma params_read (R : expr -> expr -> Prop) m : forall l first os,
  (forall x d, In (x, d) l -> shown R x d) ->
  glay m (join_params first l) os ->
  exists l', Forall2 R (map fst l) l' /\ inner os (listed_by_commas (map lines l')).
Proof.
  induction l as [|[x d] l IH]; intros first os O H.
  - cbn [join_params glay] in H. subst os. exists []. split; [constructor|apply reads_nil].
  - cbn [join_params] in H. split_lay H. split_lay H. split_lay H. split_lay H. lay_nil H.
    assert (N : quiet x0).
    { destruct first; [cbn [glay] in A; subst; apply quiet_nil|].
      exact (line_quiet _ _ _ A). }
    destruct (O x d (or_introl eq_refl) _ _ A0) as [x' [Rx Ex]].
    destruct (IH false _ (fun y e i => O y e (or_intror i)) A2) as [l' [Rl El]].
    exists (x' :: l'). split; [constructor; assumption|].
    rewrite app_nil_r. apply inner_quiet_l; [exact N|]. destruct l as [|[y e] l].
    + inversion Rl; subst. cbn [join_params glay] in A1, A2. subst. cbn [app map listed_by_commas].
      rewrite app_nil_r. exact Ex.
    + apply inner_comma in A1. inversion Rl; subst.
      exact (inner_app _ _ _ _ Ex (inner_app _ _ _ _ A1 El)).
Qed.

(** * Arguments *)

Fixpoint sep_lines (args : list (ainfo * bool)) (l : list expr) : list (token * bool) :=
  match args, l with
  | a :: args, x :: l =>
    lines x ++ (if snd a then [inline tCOMMA] else []) ++ sep_lines args l
  | _, _ => []
  end.

Variable R : expr -> expr -> Prop.
Definition args_read (args : list (ainfo * bool)) (os : list op) : Prop :=
  exists l', Forall2 (arg_rel R) args l' /\ inner os (sep_lines args l').

Lemma sep_lines_app a : forall l b l',
  length a = length l -> sep_lines (a ++ b) (l ++ l') = sep_lines a l ++ sep_lines b l'.
Proof.
  induction a as [|x a IH]; intros [|y l] b l' E; try discriminate; [reflexivity|].
  cbn [sep_lines app]. rewrite IH by (injection E; auto). rewrite <- !app_assoc. reflexivity.
Qed.
Lemma read_nil os : quiet os -> args_read [] os.
Proof. intros N. exists []. split; [constructor|]. apply inner_quiet, N. Qed.
Lemma read_app a b x y : args_read a x -> args_read b y -> args_read (a ++ b) (x ++ y).
Proof.
  intros [l [A B]] [l' [C D]]. exists (l ++ l'). split; [apply Forall2_app; assumption|].
  rewrite sep_lines_app by (apply (Forall2_length _ _ _ A)). apply inner_app; assumption.
Qed.
Lemma read_quiet_l a x y : quiet x -> args_read a y -> args_read a (x ++ y).
Proof. intros N [l [A B]]. exists l. split; [exact A|]. apply inner_quiet_l; assumption. Qed.
Lemma read_quiet_r a x y : quiet y -> args_read a x -> args_read a (x ++ y).
Proof. intros N [l [A B]]. exists l. split; [exact A|]. apply inner_quiet_r; assumption. Qed.

Definition arg_shown (a : ainfo * bool) : Prop := shown R (ai_node (fst a)) (ai_doc (fst a)).

Lemma read_one (a : ainfo * bool) d m os :
  shown R (ai_node (fst a)) d ->
  glay m (DCat d (if snd a then token_doc tCOMMA else DNil)) os -> args_read [a] os.
Proof.
  intros O H. split_lay H. destruct (O _ _ A) as [x' [Rx Ex]].
  exists [x']. split; [constructor; [exact Rx|constructor]|].
  cbn [sep_lines]. rewrite app_nil_r. apply inner_app; [exact Ex|]. destruct (snd a).
  - exact (inner_comma _ _ H).
  - cbn [glay] in H. subst. apply reads_nil.
Qed.
Lemma read_arg_doc a m os : arg_shown a -> glay m (arg_doc a) os -> args_read [a] os.
Proof. intros O H. exact (read_one a _ m os O H). Qed.
Lemma read_cons a b x y : args_read [a] x -> args_read b y -> args_read (a :: b) (x ++ y).
Proof. exact (read_app [a] b x y). Qed.

Lemma holes_doc_read m : forall l os,
  Forall arg_shown l -> glay m (holes_doc l) os -> args_read l os.
Proof.
  unfold holes_doc. induction l as [|a l IH]; intros os O H.
  - cbn [map cat glay] in H. subst. apply read_nil, quiet_nil.
  - inversion O as [|? ? O1 O2]; subst. split_lay H.
    apply read_cons; [exact (read_arg_doc _ _ _ O1 A)|exact (IH _ O2 H)].
Qed.
Lemma broken_args_read m : forall l first os,
  Forall arg_shown l -> glay m (broken_args first l) os -> args_read l os.
Proof.
  induction l as [|a l IH]; intros first os O H.
  - cbn [broken_args glay] in H. subst. apply read_nil, quiet_nil.
  - inversion O as [|? ? O1 O2]; subst. cbn [broken_args] in H.
    split_lay H. split_lay H. split_lay H. lay_nil H.
    apply read_quiet_l.
    + destruct first; [cbn [glay] in A; subst; apply quiet_nil|exact (line_quiet _ _ _ A)].
    + rewrite app_nil_r. apply read_cons; [exact (read_arg_doc _ _ _ O1 A0)|].
      exact (IH _ _ O2 A1).
Qed.
Lemma join_test_read m : forall l first os,
  Forall arg_shown l ->
  glay m ((fix join (first : bool) (l : list (ainfo * bool)) :=
             match l with
             | [] => DNil
             | a :: r => cat [ (if first : bool then DNil else DSpace); arg_doc a; join false r ]
             end) first l) os -> args_read l os.
Proof.
  induction l as [|a l IH]; intros first os O H.
  - cbn [glay] in H. subst. apply read_nil, quiet_nil.
  - inversion O as [|? ? O1 O2]; subst.
    split_lay H. split_lay H. split_lay H. lay_nil H.
    apply read_quiet_l.
    + destruct first; [cbn [glay] in A; subst; apply quiet_nil|exact (space_quiet _ _ A)].
    + rewrite app_nil_r. apply read_cons; [exact (read_arg_doc _ _ _ O1 A0)|].
      exact (IH _ _ O2 A1).
Qed.

Lemma all_broken_out_read m l r rc holes args expand os :
  Forall arg_shown holes -> Forall arg_shown args ->
  glay m (all_broken_out l r rc holes args expand) os ->
  exists m' x y z, glay m' l x /\ glay m' r z /\ os = x ++ y ++ z /\
    args_read (holes ++ args) y.
Proof.
  intros Oh Oa H. unfold all_broken_out in H. apply glay_group in H. destruct H as [m' H].
  split_lay H. split_lay H. split_lay H. split_lay H. split_lay H. lay_nil H.
  exists m', x, (x0 ++ x1 ++ x2), x3. split; [exact A|]. split; [exact A3|].
  split; [rewrite <- !app_assoc, app_nil_r; reflexivity|].
  apply read_app; [exact (holes_doc_read _ _ _ Oh A0)|].
  apply read_quiet_l; [exact (maybe_space_quiet _ _ _ A1)|].
  destruct (negb expand && is_hugging args rc).
  - exact (broken_args_read _ _ _ _ Oa A2).
  - apply soft_block_quiet in A2. destruct A2 as [a [u [b [Na [U [Nb ->]]]]]].
    apply read_quiet_l; [exact Na|]. apply read_quiet_r; [exact Nb|].
    exact (broken_args_read _ _ _ _ Oa U).
Qed.

(** The last argument may be written by its grouped form. *)
Definition last_shown (args : list (ainfo * bool)) : Prop :=
  forall a d, last_opt args = Some a -> ai_function (fst a) = Some d ->
    shown R (ai_node (fst a)) d.

Lemma join_grouped_read only (wrap : doc -> doc) m :
  (forall d m os, glay m (wrap d) os -> exists m', glay m' d os) ->
  forall l first os,
  Forall arg_shown l -> last_shown l -> glay m (join_grouped only first wrap l) os ->
  args_read l os.
Proof.
  intros W. induction l as [|a l IH]; intros first os O La H.
  - cbn [join_grouped glay] in H. subst. apply read_nil, quiet_nil.
  - inversion O as [|? ? O1 O2]; subst. cbn [join_grouped] in H.
    split_lay H. split_lay H. split_lay H. lay_nil H.
    apply read_quiet_l.
    + destruct first; [cbn [glay] in A; subst; apply quiet_nil|exact (line_quiet _ _ _ A)].
    + rewrite app_nil_r. apply read_cons.
      * destruct l as [|b l].
        -- apply W in A0. destruct A0 as [m' A0]. unfold grouped_last in A0.
           destruct (ai_function (fst a)) as [d|] eqn:E.
           ++ destruct only; [exact (read_arg_doc _ _ _ O1 A0)|].
              exact (read_one a d m' _ (La a d eq_refl E) A0).
           ++ exact (read_arg_doc _ _ _ O1 A0).
        -- exact (read_arg_doc _ _ _ O1 A0).
      * apply (IH false _ O2); [|exact A1].
        intros a' d E F. destruct l as [|b l]; [discriminate|].
        apply (La a' d); [|exact F]. rewrite last_opt_cons. exact E.
Qed.

Lemma write_grouped_read m l r rc holes args os :
  Forall arg_shown holes -> Forall arg_shown args -> last_shown args ->
  glay m (write_grouped l r rc holes args) os ->
  exists m' x y z, glay m' l x /\ glay m' r z /\ os = x ++ y ++ z /\
    args_read (holes ++ args) y.
Proof.
  intros Oh Oa La H. unfold write_grouped in H.
  destruct (last_opt args) as [a|]; [|exact (all_broken_out_read _ _ _ _ _ _ _ _ Oh Oa H)].
  cbv zeta in H.
  match type of H with context [existsb ?f ?x] => destruct (existsb f x) end;
    [exact (all_broken_out_read _ _ _ _ _ _ _ _ Oh Oa H)|].
  match type of H with context [if ?b then _ else _] => destruct b end;
    [exact (all_broken_out_read _ _ _ _ _ _ _ _ Oh Oa H)|].
  assert (V : forall only wrap m os,
    (forall d m os, glay m (wrap d) os -> exists m', glay m' d os) ->
    glay m (cat [ l; holes_doc holes; maybe_space (nonempty holes && nonempty args);
                  join_grouped only true wrap args; r ]) os ->
    exists m' x y z, glay m' l x /\ glay m' r z /\ os = x ++ y ++ z /\
      args_read (holes ++ args) y).
  { clear H. intros only wrap m0 os0 W H.
    split_lay H. split_lay H. split_lay H. split_lay H. split_lay H. lay_nil H.
    exists m0, x, (x0 ++ x1 ++ x2), x3. split; [exact A|]. split; [exact A3|].
    split; [rewrite <- !app_assoc, app_nil_r; reflexivity|].
    apply read_app; [exact (holes_doc_read _ _ _ Oh A0)|].
    apply read_quiet_l; [exact (maybe_space_quiet _ _ _ A1)|].
    exact (join_grouped_read _ _ _ W _ _ _ Oa La A2). }
  assert (W1 : forall d m os, glay m ((fun d : doc => d) d) os -> exists m', glay m' d os)
    by (intros d m0 os0 X; exists m0; exact X).
  assert (W2 : forall d m os, glay m (group true d) os -> exists m', glay m' d os)
    by (intros d m0 os0 X; exact X).
  destruct (will_break (arg_doc a)).
  - split_lay H. cbn [glay] in A. subst x. cbn [app]. destruct H as [m' [H|H]].
    + exact (V _ _ _ _ W2 H).
    + exact (all_broken_out_read _ _ _ _ _ _ _ _ Oh Oa H).
  - destruct H as [m' [H|[m'' [H|H]]]].
    + exact (V _ _ _ _ W1 H).
    + exact (V _ _ _ _ W2 H).
    + exact (all_broken_out_read _ _ _ _ _ _ _ _ Oh Oa H).
Qed.

Lemma sep_lines_with_seps infos : forall l,
  length l = length infos -> sep_lines (with_seps infos) l = listed_by_commas (map lines l).
Proof.
  induction infos as [|a infos IH]; intros [|x l] E; try discriminate; [reflexivity|].
  destruct infos as [|b infos].
  - destruct l; [|discriminate]. cbn. apply app_nil_r.
  - destruct l as [|y l]; [discriminate|].
    change (with_seps (a :: b :: infos)) with ((a, true) :: with_seps (b :: infos)).
    cbn [sep_lines snd]. rewrite IH by (injection E; auto). reflexivity.
Qed.
Lemma read_all infos os :
  args_read (with_seps infos) os ->
  exists l', Forall2 R (map ai_node infos) l' /\ inner os (listed_by_commas (map lines l')).
Proof.
  intros [l' [A B]].
  assert (L : length l' = length infos).
  { rewrite <- (Forall2_length _ _ _ A), <- (map_length fst (with_seps infos)),
      with_seps_nodes. reflexivity. }
  exists l'. split.
  - rewrite <- (with_seps_nodes infos). rewrite map_map. clear B L.
    induction A; cbn [map]; constructor; assumption.
  - rewrite sep_lines_with_seps in B by exact L. exact B.
Qed.

(** Everything between the delimiters. *)
Definition listed_read (k : call_kind) (infos : list ainfo) (os : list op) : Prop :=
  exists m x y z l', glay m (token_doc (l_token k)) x /\ glay m (token_doc (r_token k)) z /\
    os = x ++ y ++ z /\
    Forall2 R (map ai_node infos) l' /\ inner y (listed_by_commas (map lines l')).

Variable o : format_options.
Variable pc : doc -> option (list piece).

Lemma call_like_read m n k rc infos os :
  Forall arg_shown (with_seps infos) ->
  (infos <> [] -> group_last (map ai_node infos) = true -> last_shown (with_seps infos)) ->
  glay m (rule_call_like o n k rc infos) os -> listed_read k infos os.
Proof.
  intros O La H. unfold rule_call_like in H.
  destruct infos as [|i0 infos0] eqn:EI.
  - split_lay H. split_lay H. split_lay H. lay_nil H.
    exists m, x, x0, x1, []. split; [exact A|]. split; [exact A1|].
    split; [rewrite app_nil_r; reflexivity|]. split; [constructor|].
    exact (inner_quiet _ (dangling_soft_quiet _ _ _ A0)).
  - rewrite <- EI in *. assert (Ne : infos <> []) by (rewrite EI; discriminate). clear EI.
    assert (F : forall y, args_read (with_seps infos) y ->
      forall m' x z, glay m' (token_doc (l_token k)) x -> glay m' (token_doc (r_token k)) z ->
      listed_read k infos (x ++ y ++ z)).
    { intros y Sy m' x z X Z. apply read_all in Sy. destruct Sy as [l' [A B]].
      exists m', x, y, z, l'. auto. }
    assert (H' : glay m
      (if match k with KCall => is_test_call (map ai_node infos) | _ => false end
       then
        cat [ token_doc (l_token k);
              (fix join first (l : list (ainfo * bool)) :=
                 match l with
                 | [] => DNil
                 | a :: r => cat [ (if first : bool then DNil else DSpace); arg_doc a; join false r ]
                 end) true (with_seps infos);
              token_doc (r_token k) ]
       else
        let l := token_doc (l_token k) in
        let r := token_doc (r_token k) in
        let holes := take_holes (with_seps infos) in
        let args := drop_holes (with_seps infos) in
        if existsb (fun a => 1 <? hole_lines a) holes || existsb (fun a => 1 <? arg_lines a) args
        then all_broken_out l r rc holes args true
        else if persist o && (existsb (fun a => 0 <? hole_lines a) holes
                            || match args with a :: _ => 0 <? arg_lines a | [] => false end)
        then all_broken_out l r rc holes args true
        else if group_last (map ai_node infos) then write_grouped l r rc holes args
        else all_broken_out l r rc holes args false) os).
    { exact H. }
    clear H. rename H' into H.
    match type of H with glay _ (if ?b then _ else _) _ => destruct b end.
    + split_lay H. split_lay H. split_lay H. lay_nil H. rewrite app_nil_r.
      refine (F _ _ m _ _ A A1). exact (join_test_read _ _ _ _ O A0).
    + cbv zeta in H.
      destruct (Forall_split _ _ _ _ (holes_split (with_seps infos)) O) as [Oh Oa].
      set (holes := take_holes (with_seps infos)) in *.
      set (args := drop_holes (with_seps infos)) in *.
      assert (HA : holes ++ args = with_seps infos) by apply holes_split.
      assert (G : forall os, (exists m' x y z, glay m' (token_doc (l_token k)) x /\
          glay m' (token_doc (r_token k)) z /\ os = x ++ y ++ z /\
          args_read (holes ++ args) y) -> listed_read k infos os).
      { intros os' [m' [x [y [z [X [Z [-> Y]]]]]]]. rewrite HA in Y.
        exact (F y Y m' x z X Z). }
      match type of H with glay _ (if ?b then _ else _) _ => destruct b end.
      { apply G. exact (all_broken_out_read _ _ _ _ _ _ _ _ Oh Oa H). }
      match type of H with glay _ (if ?b then _ else _) _ => destruct b end.
      { apply G. exact (all_broken_out_read _ _ _ _ _ _ _ _ Oh Oa H). }
      match type of H with glay _ (if ?b then _ else _) _ => destruct b eqn:EG end.
      { apply G. refine (write_grouped_read _ _ _ _ _ _ _ Oh Oa _ H).
        intros a d La1 Ed. apply (La Ne eq_refl a d); [|exact Ed].
        rewrite <- HA. rewrite last_opt_app_r; [exact La1|].
        intros N. rewrite N in La1. discriminate. }
      apply G. exact (all_broken_out_read _ _ _ _ _ _ _ _ Oh Oa H).
Qed.

(** * Tables *)

Lemma raw_reads m ps : forall os st, glay m (raw_pieces ps) os -> lexo st os = scan st ps /\
  (copies copy_piece see st ps -> copies copy_op see_op st os).
Proof.
  unfold raw_pieces. induction ps as [|p ps IH]; intros os st H.
  - cbn [map cat glay] in H. subst. split; [reflexivity|exact (fun H => H)].
  - split_lay H. cbn [scan copies]. destruct p as [w| |]; cbn [glay] in A; subst x;
      cbn [app lexo see_op see_step see see_word copies copy_op copy_step copy_piece copy_word].
    + destruct (see_word st w) as [a st1]. destruct (IH _ st1 H) as [E C]. rewrite E.
      split; [reflexivity|tauto].
    + destruct (IH _ st H) as [E C]. rewrite E. split; [reflexivity|tauto].
    + destruct (IH _ (see_newline st) H) as [E C]. rewrite E. split; [reflexivity|tauto].
Qed.

Definition fields_shown (a : ainfo) : Prop := shown R (ai_node a) (ai_fields a).

Lemma write_cell_read m cs j c os :
  cell_printer pc ->
  (forall ps, ce_kind _ c = Other ps -> cell_text pc (ce_arg _ c) = Some ps) ->
  arg_shown (cell_arg c) -> fields_shown (ce_arg _ c) ->
  glay m (write_cell ainfo own_lead own_trail ai_doc (token_doc tCOMMA) cs j c) os ->
  args_read [cell_arg c] os.
Proof.
  intros Cp Ck O F H. unfold write_cell in H.
  destruct (cell_padding _ _) as [lp rp].
  split_lay H. split_lay H. split_lay H. split_lay H. split_lay H. lay_nil H.
  apply spaces_quiet in A. rewrite app_nil_r.
  apply read_quiet_l; [exact A|].
  assert (V : exists x', R (ai_node (ce_arg _ c)) x' /\ inner x0 (lines x')).
  { destruct (ce_kind _ c) as [iw fw|ps] eqn:EK.
    - exact (O _ _ A0).
    - split_lay A0. split_lay A0. split_lay A0. lay_nil A0. rewrite app_nil_r.
      destruct (cell_text_prints _ _ _ Cp (Ck ps eq_refl)) as [os' [L ->]].
      destruct (F _ _ L) as [x' [Rx Ex]]. exists x'. split; [exact Rx|].
      unfold own_lead in A4. unfold own_trail in A6.
      apply inner_quiet_l; [exact (leading_quiet _ _ _ A4)|].
      apply inner_quiet_r; [exact (trailing_quiet _ _ _ _ A6)|].
      destruct (raw_reads _ _ _ (at_rest stk) A5) as [Ra Rc].
      destruct (run_reads _ _ _ _ (ready_rest _ Closed) Ex) as [Co E].
      split; [|exact (Rc Co)]. rewrite Ra.
      destruct E as [E|E]; rewrite E; [reflexivity|]. rewrite inner_newline. reflexivity. }
  destruct V as [x' [Rx Ex]]. exists [x']. split; [constructor; [exact Rx|constructor]|].
  cbn [sep_lines cell_arg fst snd]. rewrite app_nil_r. apply inner_app; [exact Ex|].
  apply space_quiet in A3.
  destruct (ce_sep _ c).
  - apply spaces_quiet in A1. split_lay A2. split_lay A2. lay_nil A2.
    apply space_quiet in A4. apply inner_comma in A5. rewrite app_nil_r.
    apply inner_quiet_l; [exact A1|]. apply inner_quiet_r; [exact A3|].
    apply inner_quiet_l; [exact A4|]. exact A5.
  - cbn [glay] in A1, A2. subst. cbn [app]. exact (inner_quiet _ A3).
Qed.

Definition cell_shown (c : cell ainfo) : Prop :=
  (forall ps, ce_kind _ c = Other ps -> cell_text pc (ce_arg _ c) = Some ps) /\
  arg_shown (cell_arg c) /\ fields_shown (ce_arg _ c).

Lemma write_cells_read m cs (Cp : cell_printer pc) : forall row j os,
  Forall cell_shown row ->
  glay m (write_cells ainfo own_lead own_trail ai_doc (token_doc tCOMMA) cs j row) os ->
  args_read (map cell_arg row) os.
Proof.
  induction row as [|c row IH]; intros j os G H.
  - cbn [write_cells glay] in H. subst. apply read_nil, quiet_nil.
  - inversion G as [|? ? [G1 [G2 G3]] G6]; subst. cbn [write_cells] in H. split_lay H.
    cbn [map]. apply read_cons; [|exact (IH _ _ G6 H)].
    exact (write_cell_read _ _ _ _ _ Cp G1 G2 G3 A).
Qed.
Lemma write_rows_read m cs (Cp : cell_printer pc) : forall rs first os,
  Forall cell_shown (concat rs) ->
  glay m (write_rows ainfo ai_node own_lead own_trail ai_doc (token_doc tCOMMA) cs first rs) os ->
  args_read (map cell_arg (concat rs)) os.
Proof.
  induction rs as [|row rs IH]; intros first os G H.
  - cbn [write_rows glay] in H. subst. apply read_nil, quiet_nil.
  - cbn [write_rows] in H. split_lay H. split_lay H. split_lay H. lay_nil H.
    cbn [concat] in G |- *. apply Forall_app in G. destruct G as [G1 G2].
    apply read_quiet_l.
    { destruct first; [cbn [glay] in A; subst; apply quiet_nil|].
      unfold row_break in A. destruct row; [cbn [glay] in A; subst; apply quiet_nil|].
      exact (line_quiet _ _ _ A). }
    rewrite app_nil_r, map_app. apply read_app; [exact (write_cells_read _ _ Cp _ _ _ G1 A0)|].
    exact (IH _ _ G2 A1).
Qed.
Lemma write_remaining_read m l os :
  Forall arg_shown l ->
  glay m (write_remaining ainfo ai_node ai_doc (token_doc tCOMMA) l) os -> args_read l os.
Proof.
  unfold write_remaining. destruct l as [|a0 l0].
  - cbn [glay]. intros _ ->. apply read_nil, quiet_nil.
  - set (l := a0 :: l0). intros O H. split_lay H. apply read_quiet_l;
      [exact (line_quiet _ _ _ A)|]. clear A.
    revert y H. induction O as [|[a sep] l1 O1 O2 IH]; intros y H.
    + cbn [map cat glay] in H. subst. apply read_nil, quiet_nil.
    + cbn [map] in H. split_lay H. split_lay A. split_lay A. split_lay A. lay_nil A.
      rewrite app_nil_r. rewrite <- !app_assoc.
      apply read_quiet_l; [exact (line_quiet _ _ _ A0)|].
      rewrite app_assoc. apply read_cons; [|exact (IH _ H)].
      apply (read_one (a, sep) (ai_doc a) m); [exact O1|].
      do 2 eexists. split; [exact A1|]. split; [exact A2|reflexivity].
Qed.

Lemma table_read m t infos os :
  cell_printer pc ->
  Forall arg_shown (with_seps infos) ->
  Forall (fun a => fields_shown (fst a)) (with_seps infos) ->
  build_table ainfo ai_node (cell_text pc) (with_seps infos) = Some t ->
  glay m (write_table ainfo ai_node own_lead own_trail ai_doc (token_doc tCOMMA)
            (token_doc tLPAREN) (token_doc tRPAREN) t) os ->
  listed_read KCall infos os.
Proof.
  intros Cp O G B H. unfold build_table in B.
  apply build_loop_spec in B; [|intros c []].
  destruct B as [B1 B2]. cbn [concat map app] in B1.
  unfold write_table in H. apply glay_group in H. destruct H as [m' H].
  split_lay H. split_lay H. split_lay H. lay_nil H. rewrite app_nil_r.
  apply soft_block_quiet in A0. destruct A0 as [a [u [b [Na [U [Nb ->]]]]]].
  split_lay U.
  assert (Ha : forall c, In c (concat (rows _ t)) -> In (cell_arg c) (with_seps infos)).
  { intros c Ic. rewrite <- B1. apply in_or_app. left. apply in_map, Ic. }
  rewrite Forall_forall in O, G.
  assert (Sh : args_read (with_seps infos) (x0 ++ y)).
  { rewrite <- B1. apply read_app.
    - refine (write_rows_read _ _ Cp _ _ _ _ A0). apply Forall_forall. intros c Ic.
      destruct (B2 c Ic) as [N K].
      split; [exact K|]. split; [exact (O _ (Ha c Ic))|exact (G _ (Ha c Ic))].
    - refine (write_remaining_read _ _ _ _ U). apply Forall_forall. intros a0 Ia.
      apply O. rewrite <- B1. apply in_or_app. right. exact Ia. }
  apply read_all in Sh. destruct Sh as [l' [F E]].
  exists m', x, (a ++ (x0 ++ y) ++ b), x1, l'. split; [exact A|]. split; [exact A1|].
  split; [reflexivity|]. split; [exact F|].
  apply inner_quiet_l; [exact Na|]. apply inner_quiet_r; [exact Nb|]. exact E.
Qed.
End Enclosed.
