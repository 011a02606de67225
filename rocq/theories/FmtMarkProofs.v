(** Which tokens begin a line. *)
From Coq Require Import List Arith Bool NArith Lia Permutation Sorted.
From Verif Require Import Text SettingsModel SyntaxKind DirectiveModel FmtTree IrModel TableModel
  FmtModel FmtSpec FmtPathSpec FmtProofs FmtRunProofs FmtListProofs FmtTidyProofs FmtRootProofs
  FmtPathProofs FmtEdgeProofs.
Import ListNotations.

(** * Marks of layouts *)

Definition after_word (f : bool) (w : word) : bool :=
  match word_tokens w with [] => f | _ => false end.
Fixpoint omarks (f : bool) (os : list op) : list (token * bool) :=
  match os with
  | [] => []
  | OStep (SWord WBreak) :: r => omarks true r
  | OStep (SWord w) :: r => mark_all f (word_tokens w) ++ omarks (after_word f w) r
  | OStep SSpace :: r => omarks f r
  | OStep (SLine _) :: r => omarks true r
  | OSuffix _ _ :: r => omarks f r
  end.
Fixpoint oflag (f : bool) (os : list op) : bool :=
  match os with
  | [] => f
  | OStep (SWord WBreak) :: r => oflag true r
  | OStep (SWord w) :: r => oflag (after_word f w) r
  | OStep SSpace :: r => oflag f r
  | OStep (SLine _) :: r => oflag true r
  | OSuffix _ _ :: r => oflag f r
  end.

Lemma omarks_app a b : forall f, omarks f (a ++ b) = omarks f a ++ omarks (oflag f a) b.
Proof.
  induction a as [|[[[]| |]|] a IH]; intros f; cbn [app omarks oflag]; try apply IH;
    try reflexivity; rewrite IH, app_assoc; reflexivity.
Qed.
Lemma oflag_app a b : forall f, oflag f (a ++ b) = oflag (oflag f a) b.
Proof. induction a as [|[[[]| |]|] a IH]; intros f; cbn [app oflag]; try apply IH; reflexivity. Qed.
Lemma mark_all_fst f ts : map fst (mark_all f ts) = ts.
Proof.
  destruct ts as [|t ts]; [reflexivity|]. cbn [mark_all map fst]. rewrite map_map. cbn [fst].
  rewrite map_id. reflexivity.
Qed.
Lemma omarks_fst os : forall f, map fst (omarks f os) = optokens os.
Proof.
  induction os as [|[[w| |e]|g c] os IH]; intros f; [reflexivity|..]; try exact (IH _).
  destruct w; try exact (IH _); cbn [omarks]; rewrite map_app, mark_all_fst, IH; reflexivity.
Qed.
Lemma omarks_begins os : begins_line (omarks true os).
Proof.
  induction os as [|[[w| |e]|g c] os IH]; [exact I|..]; try exact IH.
  destruct w as [t|c|n|e|]; try exact IH; cbn [omarks]; [reflexivity|].
  unfold after_word. destruct (word_tokens (WVerb e)); [exact IH|reflexivity].
Qed.
Lemma omarks_none os : forall f, optokens os = [] -> omarks f os = [].
Proof.
  intros f E. rewrite <- (omarks_fst os f) in E. destruct (omarks f os); [reflexivity|discriminate].
Qed.

(** Of what is printed. *)
Fixpoint mflag (f : bool) (ps : list piece) : bool :=
  match ps with
  | [] => f
  | PNewline :: r => mflag true r
  | PSpace :: r => mflag f r
  | PWord w :: r => mflag (after_word f w) r
  end.
Lemma marks_app a b : forall f, marks f (a ++ b) = marks f a ++ marks (mflag f a) b.
Proof.
  induction a as [|[] a IH]; intros f; cbn [app marks mflag]; try apply IH; try reflexivity.
  rewrite IH, app_assoc. reflexivity.
Qed.
Definition smarks (f : bool) (ss : list step) := omarks f (map OStep ss).
Lemma step_marks st s f : (p_line st = false -> f = true) ->
  marks f (fst (print_step st s)) = smarks f [s] /\
  (p_line (snd (print_step st s)) = false -> mflag f (fst (print_step st s)) = true) /\
  (mflag f (fst (print_step st s)) = oflag f [OStep s]).
Proof.
  intros I. unfold smarks. destruct s as [w| |e]; cbn [print_step map omarks oflag fst snd].
  - destruct (p_space st), w; cbn [app marks mflag p_line]; repeat split; try discriminate.
  - cbn [p_line marks mflag]. auto.
  - destruct (p_line st) eqn:L; [|rewrite (I eq_refl)]; destruct e, (p_empty st); repeat split.
Qed.
Lemma steps_marks ss : forall st f, (p_line st = false -> f = true) ->
  marks f (fst (print_steps st ss)) = smarks f ss.
Proof.
  induction ss as [|s ss IH]; intros st f I; [reflexivity|]. cbn [print_steps].
  destruct (step_marks st s f I) as [A [B C]]. destruct (print_step st s) as [o1 st1].
  cbn [fst snd] in A, B, C. specialize (IH st1 (mflag f o1) B).
  destruct (print_steps st1 ss) as [o2 st2]. cbn [fst] in *. rewrite marks_app, A, IH, C.
  unfold smarks. change (map OStep (s :: ss)) with ([OStep s] ++ map OStep ss).
  rewrite omarks_app. reflexivity.
Qed.
Lemma held_marks held : forall f, smarks f (held_steps held) = [].
Proof.
  unfold smarks. induction held as [|[g c] held IH]; intros f; [reflexivity|].
  cbn [held_steps flat_map app map]. change (flat_map _ held) with (held_steps held).
  destruct g; cbn [gap_step omarks word_tokens mark_all app]; apply IH.
Qed.
Lemma unsuffix_marks os : forall held f, smarks f (unsuffix held os) = omarks f os.
Proof.
  induction os as [|[[w| |e]|g c] os IH]; intros held f; cbn [unsuffix]; [apply held_marks|..].
  - unfold smarks in *. cbn [map omarks]. destruct w; rewrite IH; reflexivity.
  - unfold smarks in *. cbn [map omarks]. apply IH.
  - unfold smarks in *. rewrite map_app, omarks_app. fold (smarks f (held_steps held)).
    rewrite held_marks. cbn [map omarks app]. apply IH.
  - apply IH.
Qed.
Lemma marks_tokens ps : forall f, map fst (marks f ps) = ptokens ps.
Proof.
  induction ps as [|p ps IH]; intros f; [reflexivity|]. destruct p as [w| |]; cbn [marks].
  - rewrite map_app, mark_all_fst, IH. reflexivity.
  - apply IH.
  - apply IH.
Qed.
Lemma line_marks_tokens ps : map fst (line_marks ps) = ptokens ps.
Proof. apply marks_tokens. Qed.
Lemma run_marks os : line_marks (run os) = omarks true os.
Proof.
  unfold line_marks, run. rewrite steps_marks by reflexivity. apply unsuffix_marks.
Qed.

(** * Lists laid out one item per line *)

Lemma one_per_line_nil : one_per_line [] [].
Proof. exists []. split; [reflexivity|constructor]. Qed.
Lemma one_per_line_cons ts its ms mss :
  map fst ms = ts -> begins_line ms -> one_per_line its mss ->
  one_per_line (ts :: its) (ms ++ mss).
Proof.
  intros A B [l [-> F]]. exists (ms :: l). split; [reflexivity|]. constructor; [auto|exact F].
Qed.

Lemma token_lay m t os : glay m (token_doc t) os -> os = [OStep (SWord (WTok (norm_token t)))].
Proof. exact (fun H => H). Qed.

Section Lists.
Variable R : expr -> expr -> Prop.
Notation okd := (ok False R).

Fixpoint sep_items (args : list (ainfo * bool)) (l : list expr) : list (list token) :=
  match args, l with
  | a :: args, x :: l =>
    (etokens x ++ (if snd a then [tCOMMA] else [])) :: sep_items args l
  | _, _ => []
  end.
Lemma broken_args_marks : forall l first os f,
  Forall (arg_ok False R) l -> glay Expanded (broken_args first l) os -> (first = true -> f = true) ->
  exists l', Forall2 (arg_rel R) l l' /\ one_per_line (sep_items l l') (omarks f os).
Proof.
  induction l as [|a l IH]; intros first os f O H B.
  - cbn [broken_args glay] in H. subst os. exists []. split; [constructor|]. exact one_per_line_nil.
  - inversion O as [|? ? O1 O2]; subst. cbn [broken_args] in H.
    split_lay H. split_lay H. split_lay H. lay_nil H. rewrite app_nil_r.
    assert (E : omarks f (x ++ x0 ++ x1) = omarks true x0 ++ omarks (oflag true x0) x1).
    { destruct first.
      - cbn [glay] in A. subst x. rewrite (B eq_refl). cbn [app]. apply omarks_app.
      - destruct (arg_lines a <=? 1); cbn [glay] in A; subst x; cbn [app omarks]; apply omarks_app. }
    rewrite E. destruct (shows_arg_doc False R a Expanded x0 O1 A0) as [l1 [F1 [T1 _]]].
    inversion F1 as [|? a' ? ? R1 F0]; subst. inversion F0; subst.
    destruct (IH false x1 (oflag true x0) O2 A1 ltac:(discriminate)) as [l' [F2 L2]].
    exists (a' :: l'). split; [constructor; assumption|]. cbn [sep_items].
    apply one_per_line_cons; [|apply omarks_begins|exact L2].
    rewrite omarks_fst, T1. cbn [sep_tokens]. rewrite app_nil_r. reflexivity.
Qed.
Lemma join_params_marks : forall l first os f,
  (forall x d, In (x, d) l -> okd x d) -> glay Expanded (join_params first l) os ->
  (first = true -> f = true) ->
  exists l', Forall2 R (map fst l) l' /\
    one_per_line (with_commas (map etokens l')) (omarks f os).
Proof.
  induction l as [|[x d] l IH]; intros first os f O H B.
  - cbn [join_params glay] in H. subst os. exists []. split; [constructor|]. exact one_per_line_nil.
  - cbn [join_params] in H. split_lay H. split_lay H. split_lay H. split_lay H. lay_nil H.
    rewrite app_nil_r.
    assert (E : omarks f (x0 ++ x1 ++ x2 ++ x3) =
                omarks true (x1 ++ x2) ++ omarks (oflag true (x1 ++ x2)) x3).
    { rewrite (app_assoc x1). destruct first.
      - cbn [glay] in A. subst x0. rewrite (B eq_refl). cbn [app]. apply omarks_app.
      - destruct (1 <? n_lines (notes_of x)); cbn [glay] in A; subst x0; cbn [app omarks];
          apply omarks_app. }
    rewrite E. destruct (O x d (or_introl eq_refl) _ _ A0) as [x' [Rx [Tx _]]].
    destruct (IH false x3 (oflag true (x1 ++ x2)) (fun y e i => O y e (or_intror i)) A2
      ltac:(discriminate)) as [l' [F2 L2]].
    exists (x' :: l'). split; [constructor; assumption|].
    assert (W : with_commas (map etokens (x' :: l')) =
                (etokens x' ++ match l' with [] => [] | _ => [tCOMMA] end)
                :: with_commas (map etokens l')).
    { destruct l'; cbn [map with_commas]; rewrite ?app_nil_r; reflexivity. }
    rewrite W. apply one_per_line_cons; [|apply omarks_begins|exact L2].
    rewrite omarks_fst, optokens_app, Tx. f_equal.
    destruct l as [|[y e] l]; inversion F2; subst; cbn [glay token_doc] in A1;
      subst x2; reflexivity.
Qed.
End Lists.

Lemma sep_items_commas infos : forall l', length l' = length infos ->
  sep_items (with_seps infos) l' = with_commas (map etokens l').
Proof.
  induction infos as [|i infos IH]; intros [|x l'] E; try discriminate; [reflexivity|].
  destruct infos as [|j infos], l' as [|y l']; try discriminate.
  - cbn. rewrite app_nil_r. reflexivity.
  - change (with_seps (i :: j :: infos)) with ((i, true) :: with_seps (j :: infos)).
    cbn [sep_items snd]. rewrite (IH (y :: l')) by (injection E as E; cbn [length] in *; lia).
    reflexivity.
Qed.

(** * In a file *)

Lemma node_rule_lay o anc e f g m os :
  suppressed o anc e = false -> glay m (node_rule o anc e f g) os ->
  exists x u y, glay m f u /\ os = x ++ u ++ y.
Proof.
  intros E H. unfold node_rule in H. rewrite E in H. split_lay H. split_lay H.
  do 3 eexists. split; [exact A0|reflexivity].
Qed.
Lemma node_rule_lay_exact o anc e f g m os :
  suppressed o anc e = false -> lay m (node_rule o anc e f g) os ->
  exists x u y, lay m f u /\ os = x ++ u ++ y.
Proof.
  intros E H. unfold node_rule in H. rewrite E in H. destruct H as [x [y [A [[u [z [B [C ->]]]] ->]]]].
  do 3 eexists. split; [exact B|reflexivity].
Qed.
Lemma node_rule_loud o anc e f g :
  suppressed o anc e = false -> will_break (remove_soft f) = true ->
  will_break (remove_soft (node_rule o anc e f g)) = true.
Proof.
  intros E H. unfold node_rule. rewrite E. cbn [cat remove_soft will_break]. rewrite H.
  cbn [orb]. apply orb_true_r.
Qed.

Section Files.
Variable o : format_options.
Variable pc : doc -> option (list piece).
Hypothesis Cp : cell_printer pc.
Hypothesis Per : o_persistent_line_breaks o = PRespect.

Lemma shown anc p x : shaped x -> sort_of x <> SoElse -> agree anc p ->
  ok False (tidy o p) x (fmt o pc anc fo0 x).
Proof.
  intros Sh So A m os L.
  exact (child0 o pc False x anc p m os (fmt_holds o pc Cp x Sh) So A (fun f => match f with end) L).
Qed.

Lemma hole_leading anc x : hole x -> forall b, leading_hole (arg_info o pc anc x, b) = true.
Proof.
  intros [n [sl [-> [L [D T]]]]] b. unfold leading_hole. cbn [fst arg_info ai_node is_hole notes_of].
  unfold has_comments. rewrite L, D, T. reflexivity.
Qed.
Lemma leading_hole_hole anc x b : leading_hole (arg_info o pc anc x, b) = true -> hole x.
Proof.
  unfold leading_hole. cbn [fst arg_info ai_node]. intros H. apply andb_true_iff in H.
  destruct H as [H C]. destruct x as [| | | | | | | | | | | | | | | | | |n nm v sl|]; try discriminate.
  destruct nm, v; try discriminate. apply negb_true_iff, has_comments_false in C.
  exists n, sl. split; [reflexivity|exact C].
Qed.
Lemma with_seps_app {A} (h : list A) a l :
  with_seps (h ++ a :: l) = map (fun x => (x, true)) h ++ with_seps (a :: l).
Proof.
  induction h as [|x h IH]; [reflexivity|]. cbn [app map].
  rewrite <- IH. destruct (h ++ a :: l) eqn:E; [destruct h; discriminate|reflexivity].
Qed.
Lemma split_holes anc hs a rest : Forall hole hs -> ~ hole a ->
  let all := with_seps (map (arg_info o pc anc) (hs ++ a :: rest)) in
  take_holes all = map (fun x => (arg_info o pc anc x, true)) hs /\
  drop_holes all = with_seps (map (arg_info o pc anc) (a :: rest)).
Proof.
  intros H N. cbv zeta. rewrite map_app. cbn [map]. rewrite with_seps_app, map_map.
  induction H as [|h hs Hh _ IH].
  - cbn [map app]. assert (E : leading_hole (hd (arg_info o pc anc a, true)
      (with_seps (arg_info o pc anc a :: map (arg_info o pc anc) rest))) = false).
    { destruct (leading_hole _) eqn:E; [|reflexivity]. destruct N.
      destruct (map (arg_info o pc anc) rest); exact (leading_hole_hole _ _ _ E). }
    destruct (map (arg_info o pc anc) rest); cbn [with_seps hd] in E |- *;
      cbn [take_holes drop_holes]; rewrite E; auto.
  - destruct IH as [I1 I2]. cbn [map app take_holes drop_holes].
    rewrite (hole_leading anc h Hh true), I1, I2. auto.
Qed.
Lemma holes_marks anc m hs : Forall hole hs -> forall os,
  glay m (holes_doc (map (fun x => (arg_info o pc anc x, true)) hs)) os ->
  os = map (fun _ => OStep (SWord (WTok tCOMMA))) hs.
Proof.
  unfold holes_doc. induction 1 as [|h hs Hh _ IH]; intros os L; [exact L|].
  cbn [map cat] in L. split_lay L. cbn [map]. rewrite (IH _ L). clear IH L.
  destruct Hh as [n [sl [-> [Ld [D T]]]]].
  assert (S : suppressed o (FArgList :: anc) (EArg n None None sl) = false).
  { unfold suppressed. cbn [notes_of]. unfold has_directive. rewrite Ld. cbn. rewrite ?andb_false_r. reflexivity. }
  unfold arg_doc in A. cbn [fst snd arg_info ai_doc fmt] in A. split_lay A.
  unfold node_rule_soft, node_rule in A0. rewrite S in A0. cbn [notes_of] in A0. rewrite Ld, D, T in A0.
  cbn [argument_fields] in A0. cbn in A0.
  split_lay A0. split_lay A0. split_lay A0. split_lay A0. cbn [glay] in *. subst.
  cbn [token_doc glay] in A. subst. reflexivity.
Qed.

Lemma arg_not_nil anc a : sort_of a = SoArg -> shaped a -> ~ hole a ->
  is_nil (fmt o pc (FArgList :: anc) fo0 a) = false.
Proof.
  intros So Sh N. destruct a as [| | | | | | | | | | | | | | | | | |n nm v sl|]; try discriminate.
  cbn [fmt]. unfold node_rule_soft, node_rule. destruct (suppressed _ _ _).
  { apply solid_not_nil, solid_verbatim. }
  cbn [notes_of cat is_nil].
  destruct (n_lead n) as [|c cs] eqn:L; [|reflexivity].
  destruct (n_dang n) as [|c cs] eqn:D; [|cbn; rewrite ?andb_false_r; reflexivity].
  destruct (n_trail n) as [|c cs] eqn:T; [|cbn; rewrite ?andb_false_r; reflexivity].
  destruct Sh as [Sn Sv]. destruct nm as [nm|].
  - destruct Sn as [Sn1 Sn2].
    assert (X : is_nil (fmt o pc (FArg :: FArgList :: anc) fo0 nm) = false).
    { apply solid_not_nil, fmt_solid; [exact Sn2|congruence]. }
    destruct v; cbn [argument_fields cat is_nil]; rewrite X; cbn; rewrite ?andb_false_r; reflexivity.
  - destruct v as [v|]; [|destruct N; exists n, sl; auto]. destruct Sv as [Sv1 Sv2].
    assert (X : is_nil (fmt o pc (FArg :: FArgList :: anc) fo0 v) = false).
    { apply solid_not_nil, fmt_solid; [exact Sv2|congruence]. }
    cbn [argument_fields cat is_nil]; rewrite X; cbn; rewrite ?andb_false_r; reflexivity.
Qed.

(** The document of arguments with a line break before the first one. *)
Lemma args_rule n k rc items anc hs a rest :
  items = hs ++ a :: rest -> Forall hole hs -> ~ hole a -> all_of (fun x => sort_of x = SoArg /\ shaped x) items ->
  ~ titled_block k items -> breaks_first hs a ->
  rule_call_like o n k rc (map (arg_info o pc anc) items) =
  all_broken_out (token_doc (l_token k)) (token_doc (r_token k)) rc
    (map (fun x => (arg_info o pc anc x, true)) hs)
    (with_seps (map (arg_info o pc anc) (a :: rest))) true.
Proof.
  intros E H N Sh NT B. destruct (split_holes anc hs a rest H N) as [T D]. rewrite <- E in T, D.
  unfold rule_call_like.
  destruct (map (arg_info o pc anc) items) as [|i0 is0] eqn:EM.
  { rewrite E in EM. destruct hs; discriminate. }
  rewrite <- EM in *. clear EM i0 is0.
  assert (MN : map ai_node (map (arg_info o pc anc) items) = items)
    by (rewrite map_map; cbn [arg_info ai_node]; apply map_id).
  assert (TC : match k with KCall => is_test_call (map ai_node (map (arg_info o pc anc) items))
               | _ => false end = false).
  { rewrite MN. destruct k; try reflexivity. destruct (is_test_call items) eqn:TC; [|reflexivity].
    destruct NT. split; [reflexivity|]. clear - TC Sh.
    destruct items as [|x [|y [|z l]]]; try discriminate. destruct Sh as [[S1 _] [[S2 _] _]].
    destruct x as [| | | | | | | | | | | | | | | | | |n1 nm1 v1 sl1|]; try discriminate.
    destruct y as [| | | | | | | | | | | | | | | | | |n2 nm2 v2 sl2|]; try discriminate.
    cbn [is_test_call arg_value] in TC. destruct v1 as [v1|], v2 as [v2|]; try discriminate.
    apply andb_true_iff in TC. destruct TC as [T1 T2].
    destruct v1; try discriminate. destruct v2; try discriminate. cbn [is_string] in T1.
    apply kind_eqb_eq in T1. rewrite T1. repeat eexists. }
  rewrite TC. cbv zeta. rewrite T, D.
  match goal with |- (if ?b then _ else _) = _ => destruct b eqn:E1; [reflexivity|] end.
  match goal with |- (if ?b then _ else _) = _ => assert (E2 : b = true) end.
  { unfold persist. rewrite Per. cbn [andb]. apply orb_true_iff. destruct B as [B|B].
    - right. cbn [map]. destruct (map (arg_info o pc anc) rest); cbn [with_seps];
        unfold arg_lines; cbn [fst arg_info ai_node]; apply Nat.ltb_lt, B.
    - left. apply existsb_exists. apply Exists_exists in B. destruct B as [h [Ih Bh]].
      exists (arg_info o pc anc h, true). split; [exact (in_map (fun x => (arg_info o pc anc x, true)) _ _ Ih)|].
      unfold hole_lines. cbn [fst snd arg_info ai_node]. destruct h; try contradiction.
      apply Nat.ltb_lt, Bh. }
  rewrite E2. reflexivity.
Qed.

Lemma args_lines r out p n k rc hs a rest :
  root_shaped r -> in_file o r p (EArgs n k rc (hs ++ a :: rest)) ->
  ~ skip_asked o p (EArgs n k rc (hs ++ a :: rest)) -> (q_table p = true -> k <> KCall) ->
  Forall hole hs -> ~ hole a -> ~ titled_block k (hs ++ a :: rest) -> breaks_first hs a ->
  prints (root_doc o pc r) out ->
  exists pre nl ms post l',
    line_marks out = pre ++ (l_token k, nl) :: map (fun _ => (tCOMMA, false)) hs ++ ms ++
      (r_token k, true) :: post /\
    Forall2 (tidy o p_item) (a :: rest) l' /\ one_per_line (with_commas (map etokens l')) ms.
Proof.
  intros Sh I NS Tb H N NT B [os [L ->]]. set (items := hs ++ a :: rest) in *.
  pose proof (in_file_shaped o r p _ Sh I) as [Shs _]. cbn [shaped] in Shs.
  assert (Doc : forall anc fo, agree anc p -> fits anc p fo (EArgs n k rc items) ->
    suppressed o anc (EArgs n k rc items) = false /\
    fmt o pc anc fo (EArgs n k rc items) =
    node_rule o anc (EArgs n k rc items)
      (all_broken_out (token_doc (l_token k)) (token_doc (r_token k)) rc
        (map (fun x => (arg_info o pc anc x, true)) hs)
        (with_seps (map (arg_info o pc anc) (a :: rest))) true) DNil).
  { intros anc fo A [F _]. split.
    - destruct (suppressed o anc _) eqn:ES; [|reflexivity]. destruct NS.
      exact (suppressed_asked o anc _ p (proj1 (proj2 A)) ES).
    - rewrite fmt_args. f_equal. rewrite <- (args_rule n k rc items anc hs a rest eq_refl H N Shs NT B).
      unfold rule_args. destruct k; try reflexivity.
      destruct (fo_table fo) as [[]|]; try reflexivity. exfalso. exact (Tb (F eq_refl) eq_refl). }
  destruct (in_file_exact o pc r p (EArgs n k rc items) os Sh) as
    [anc [fo [m [pre [os' [post [A [F [_ [G ->]]]]]]]]]]; [|exact I|exact L|].
  { intros d [anc [fo [A [F [_ ->]]]]]. destruct (Doc anc fo A F) as [S ->].
    apply node_rule_loud; [exact S|reflexivity]. }
  destruct (Doc anc fo A F) as [S D]. rewrite D in G. clear D.
  destruct (node_rule_lay_exact _ _ _ _ _ _ _ S G) as [x [u [y [U ->]]]]. clear G.
  unfold all_broken_out in U. cbn [group lay] in U. apply lay_glay in U. cbv zeta in U.
  cbn [negb andb] in U.
  split_lay U. split_lay U. split_lay U. split_lay U. split_lay U. lay_nil U.
  apply token_lay in A0. apply (holes_marks anc _ _ H) in A1. subst x0 x1.
  assert (NN : is_nil (broken_args true (with_seps (map (arg_info o pc anc) (a :: rest)))) = false).
  { destruct (all_of_In _ _ a Shs ltac:(apply in_or_app; right; left; reflexivity)) as [S1 S2].
    pose proof (arg_not_nil anc a S1 S2 N) as X. cbn [map].
    destruct (map (arg_info o pc anc) rest); cbn [with_seps broken_args cat is_nil]; unfold arg_doc;
      cbn [fst snd arg_info ai_doc is_nil]; rewrite X; reflexivity. }
  unfold soft_block_indent in A3. rewrite NN in A3. clear NN.
  destruct A3 as [y1 [y2 [[z1 [z2 [Z1 [Z2 ->]]]] [[z3 [z4 [Z3 [Z4 ->]]]] ->]]]].
  cbn in Z4. cbn [glay] in Z1, Z3. apply token_lay in A4. subst z1 z3 z4 x4. clear L.
  assert (OK : Forall (arg_ok False (tidy o p_item))
    (with_seps (map (arg_info o pc anc) (a :: rest)))).
  { apply Forall_forall. intros [i b] Ii. unfold arg_ok. cbn [fst].
    apply in_with_seps in Ii. cbn [fst] in Ii. apply in_map_iff in Ii.
    destruct Ii as [x0 [<- Ix]]. cbn [arg_info ai_node ai_doc].
    destruct (all_of_In _ _ x0 Shs ltac:(apply in_or_app; right; exact Ix)) as [S1 S2].
    apply shown; [exact S2|congruence|repeat split]. }
  destruct (broken_args_marks (tidy o p_item) _ true z2 true OK Z2 (fun _ => eq_refl))
    as [l' [F2 O2]].
  assert (F3 : Forall2 (tidy o p_item) (a :: rest) l').
  { clear - F2. revert l' F2. generalize (a :: rest).
    induction l as [|x l IH]; intros l' F2; cbn [map] in F2.
    - inversion F2; constructor.
    - destruct (map (arg_info o pc anc) l) as [|i is0] eqn:E; cbn [with_seps] in F2.
      + destruct l; [|discriminate]. inversion F2 as [|? ? ? ? R1 R2]; subst. inversion R2; subst.
        constructor; [exact R1|constructor].
      + inversion F2 as [|? ? ? ? R1 R2]; subst. constructor; [exact R1|]. apply IH. exact R2. }
  rewrite sep_items_commas in O2.
  2: { rewrite map_length. symmetry. exact (Forall2_length _ _ _ F3). }
  rewrite run_marks.
  exists (omarks true (pre ++ x)), (oflag true (pre ++ x)), (omarks true z2),
    (omarks false (y ++ post)), l'.
  split; [|split; [exact F3|exact O2]].
  assert (NL : forall k, norm_token (l_token k) = l_token k) by (intros []; reflexivity).
  assert (NR : forall k, norm_token (r_token k) = r_token k) by (intros []; reflexivity).
  assert (HM : forall t, omarks false (map (fun _ : expr => OStep (SWord (WTok tCOMMA))) hs ++ t) =
    map (fun _ => (tCOMMA, false)) hs ++ omarks false t).
  { intros t. clear. induction hs as [|h hs IH]; [reflexivity|]. cbn. rewrite IH. reflexivity. }
  rewrite NL, NR.
  assert (Q : x2 = [] \/ x2 = [OStep SSpace]).
  { destruct (nonempty _ && nonempty _); cbn [maybe_space glay] in A2; auto. }
  rewrite <- ?app_assoc. rewrite app_assoc, omarks_app. f_equal.
  cbn [app omarks word_tokens mark_all after_word map]. rewrite HM. f_equal. f_equal.
  assert (E : forall t, omarks false (x2 ++ OStep (SLine false) :: t) = omarks true t)
    by (intros t; destruct Q as [-> | ->]; reflexivity).
  rewrite <- ?app_assoc. cbn [app]. rewrite E, omarks_app. f_equal.
Qed.

Lemma params_lines r out p n x l :
  root_shaped r -> in_file o r p (EParams n (x :: l)) -> ~ skip_asked o p (EParams n (x :: l)) ->
  n_newline (notes_of x) = true -> prints (root_doc o pc r) out ->
  exists pre nl ms post l',
    line_marks out = pre ++ (tLPAREN, nl) :: ms ++ (tRPAREN, true) :: post /\
    Forall2 (tidy o p_plain) (x :: l) l' /\ one_per_line (with_commas (map etokens l')) ms.
Proof.
  intros Sh I NS B [os [L ->]].
  pose proof (in_file_shaped o r p _ Sh I) as [Shs _]. cbn [shaped] in Shs.
  set (docs anc := map (fun x => (x, fmt o pc (FParamList :: anc) fo0 x)) (x :: l)).
  assert (Doc : forall anc fo, agree anc p ->
    suppressed o anc (EParams n (x :: l)) = false /\
    fmt o pc anc fo (EParams n (x :: l)) =
    node_rule o anc (EParams n (x :: l))
      (group true (cat [ token_doc tLPAREN; soft_block_indent (join_params true (docs anc));
                         token_doc tRPAREN ])) DNil).
  { intros anc fo A. split.
    - destruct (suppressed o anc _) eqn:ES; [|reflexivity]. destruct NS.
      exact (suppressed_asked o anc _ p (proj1 (proj2 A)) ES).
    - cbn [fmt]. f_equal. unfold rule_params. cbn [map]. unfold persist. rewrite Per, B.
      reflexivity. }
  destruct (in_file_exact o pc r p (EParams n (x :: l)) os Sh) as
    [anc [fo [m [pre [os' [post [A [F [_ [G ->]]]]]]]]]]; [|exact I|exact L|].
  { intros d [anc [fo [A [F [_ ->]]]]]. destruct (Doc anc fo A) as [S ->].
    apply node_rule_loud; [exact S|reflexivity]. }
  destruct (Doc anc fo A) as [S D]. rewrite D in G. clear D Doc L.
  destruct (node_rule_lay_exact _ _ _ _ _ _ _ S G) as [x0 [u [y [U ->]]]]. clear G.
  cbn [group lay] in U. apply lay_glay in U.
  assert (NN : is_nil (join_params true (docs anc)) = false).
  { destruct Shs as [[S1 S2] _]. unfold docs. cbn [map join_params cat is_nil].
    rewrite (solid_not_nil _ (fmt_solid o pc x S2 ltac:(congruence) _ _)). reflexivity. }
  destruct U as [u1 [u2 [U1 [[u3 [u4 [U2 [[u5 [u6 [U3 [U4 ->]]]] ->]]]] ->]]]].
  apply token_lay in U1, U3. cbn in U4.
  unfold soft_block_indent in U2. rewrite NN in U2. clear NN.
  destruct U2 as [y1 [y2 [[z1 [z2 [Z1 [Z2 ->]]]] [[z3 [z4 [Z3 [Z4 ->]]]] ->]]]].
  cbn in Z4. cbn [glay] in Z1, Z3. subst.
  destruct (join_params_marks (tidy o p_plain) (docs anc) true z2 true) as [l' [F2 O2]];
    [|exact Z2|reflexivity|].
  { intros x1 d Ix. apply in_map_iff in Ix. destruct Ix as [x2 [E Ix]]. injection E as <- <-.
    destruct (all_of_In _ _ x2 Shs Ix) as [S1 S2].
    apply shown; [exact S2|congruence|apply agree_plain; reflexivity]. }
  assert (F3 : map fst (docs anc) = x :: l)
    by (unfold docs; rewrite map_map; cbn [fst]; apply map_id).
  rewrite F3 in F2. rewrite run_marks.
  exists (omarks true (pre ++ x0)), (oflag true (pre ++ x0)), (omarks true z2),
    (omarks false (y ++ post)), l'.
  split; [|split; [exact F2|exact O2]].
  rewrite <- ?app_assoc. rewrite app_assoc, omarks_app. f_equal.
  cbn [app omarks word_tokens mark_all map]. f_equal.
  rewrite <- ?app_assoc. cbn [app]. rewrite omarks_app. f_equal.
Qed.

(** * Chains *)

Definition piece_of (x : token * expr) (tp : tail_piece) : Prop :=
  tp_op tp = fst x /\ tp_right tp = snd x /\ chain_op (t_kind (fst x)) = true /\
  sort_of (snd x) = SoExpr /\ shaped (snd x) /\
  exists anc, agree anc p_item /\ tp_doc tp = fmt o pc anc fo0 (snd x).

Lemma operand_item p op : chain_op (t_kind op) = true -> p_operand (q_eq p) op false = p_item.
Proof.
  intros C. unfold p_operand, p_item. f_equal. apply andb_false_intro2.
  unfold chain_op in C. destruct (t_kind op); try discriminate; reflexivity.
Qed.
Lemma is_chain_op_spec op : is_chain_op op = chain_op (t_kind op).
Proof. unfold is_chain_op, chain_op. destruct (t_kind op); reflexivity. Qed.
Lemma spine_stop anc l : ~ chain_node l -> spine o pc anc l = (fmt o pc anc fo0 l, []).
Proof.
  intros N. destruct l as [| | n l op r | | | | | | | | | | | | | | | | |]; try reflexivity.
  cbn [spine]. rewrite is_chain_op_spec. destruct (chain_op (t_kind op)) eqn:E; [|reflexivity].
  destruct N. exists n, l, op, r. auto.
Qed.
Lemma chain_pieces e h t : chain e h t -> shaped e -> forall n l op r anc p dl tl,
  e = EBinary n l op r -> agree anc p ->
  spine o pc (FBinary op :: anc) l = (dl, tl) ->
  (exists anc', agree anc' p_item /\ dl = fmt o pc anc' fo0 h) /\
  sort_of h = SoExpr /\ shaped h /\ ~ chain_node h /\
  Forall2 piece_of t (tl ++ [ {| tp_op := op; tp_right := r;
     tp_doc := fmt o pc (FBinary op :: anc) fo0 r; tp_enclosing := None |} ]) /\
  (forall enc, Forall2 piece_of t (tl ++ [ {| tp_op := op; tp_right := r;
     tp_doc := fmt o pc (FBinary op :: anc) fo0 r; tp_enclosing := enc |} ])).
Proof.
  induction 1 as [n0 l0 op0 r0 C N|n0 l0 op0 r0 h t C H IH];
    intros Sh n l op r anc p dl tl E A Sp; injection E as -> -> -> ->;
    destruct Sh as [[Sl Shl] [Sr Shr]].
  - rewrite spine_stop in Sp by exact N. injection Sp as <- <-.
    assert (Ag : agree (FBinary op :: anc) p_item)
      by (rewrite <- (operand_item p op C); apply agree_operand, A).
    assert (P : forall enc, piece_of (op, r) {| tp_op := op; tp_right := r;
        tp_doc := fmt o pc (FBinary op :: anc) fo0 r; tp_enclosing := enc |}).
    { intros enc. repeat (split; [first [reflexivity|assumption]|]). eexists.
      split; [exact Ag|reflexivity]. }
    split; [eexists; split; [exact Ag|reflexivity]|]. repeat (split; [assumption|]).
    split; [|intros enc]; (constructor; [apply P|constructor]).
  - assert (Ag : agree (FBinary op :: anc) p_item)
      by (rewrite <- (operand_item p op C); apply agree_operand, A).
    destruct l as [| | n1 l1 op1 r1 | | | | | | | | | | | | | | | | |]; try solve [inversion H].
    assert (C1 : chain_op (t_kind op1) = true) by (inversion H; assumption).
    cbn [spine] in Sp. rewrite is_chain_op_spec, C1 in Sp.
    destruct (spine o pc (FBinary op1 :: FBinary op :: anc) l1) as [dl' tl'] eqn:ES.
    injection Sp as <- <-.
    destruct (IH Shl n1 l1 op1 r1 (FBinary op :: anc) p_item dl' tl' eq_refl Ag ES)
      as [Hd [S1 [S2 [S3 [_ S5]]]]].
    assert (P : forall enc, piece_of (op, r) {| tp_op := op; tp_right := r;
        tp_doc := fmt o pc (FBinary op :: anc) fo0 r; tp_enclosing := enc |}).
    { intros enc. repeat (split; [first [reflexivity|assumption]|]). eexists.
      split; [exact Ag|reflexivity]. }
    split; [exact Hd|]. repeat (split; [assumption|]).
    split; [|intros enc]; (apply Forall2_app; [apply S5|constructor; [apply P|constructor]]).
Qed.

Lemma piece_marks m x tp f os : piece_of x tp -> glay m (chain_piece tp) os ->
  exists ms, omarks f os = (fst x, f) :: ms /\
    match m with
    | Expanded => on_new_line o (snd x) ms
    | Flat => on_same_line o (snd x) ms
    end.
Proof.
  intros [E1 [E2 [C [So [Sh [anc [A E3]]]]]]] G. unfold chain_piece in G.
  split_lay G. split_lay G. split_lay G. split_lay G. split_lay G. split_lay G. lay_nil G.
  rewrite E3 in A4. cbn [glay] in A1. apply token_lay in A2. subst x1 x2.
  assert (X0 : x0 = []).
  { destruct (tp_enclosing tp) as [n|]; [|exact A0].
    destruct (n_lead n ++ n_dang n); [exact A0|destruct A0]. }
  subst x0.
  assert (X5 : forall f, omarks f (x5 ++ []) = []).
  { intros g. apply omarks_none. rewrite app_nil_r. destruct (tp_enclosing tp).
    - exact (proj1 (trailing_emits False _ _ _ A5)).
    - cbn [glay] in A5. subst. reflexivity. }
  destruct (child0 o pc (placed o p_item (snd x)) (snd x) anc p_item m x4 (fmt_holds o pc Cp _ Sh))
    as [r' [Tr [Et Ec]]]; [congruence|exact A|auto|exact A4|].
  assert (NT : norm_token (tp_op tp) = fst x).
  { rewrite E1. unfold norm_token. destruct (kind_eqb (t_kind (fst x)) STRING_CONTENT) eqn:K;
      [|reflexivity]. apply kind_eqb_eq in K. rewrite K in C. discriminate. }
  rewrite NT. cbn [app omarks word_tokens mark_all map]. eexists. split; [reflexivity|].
  cbn [after_word word_tokens].
  assert (Sit : forall g, shows_item o (snd x) (omarks g (x4 ++ x5 ++ []))).
  { intros g. exists r'. split; [exact Tr|]. rewrite omarks_app, X5, app_nil_r, omarks_fst. exact Et. }
  assert (LN : (1 <? n_lines (notes_of (tp_right tp)) = false /\ m = Flat /\ x3 = [OStep SSpace]) \/
               (exists e, x3 = [OStep (SLine e)]) /\
               (m = Flat -> 1 <? n_lines (notes_of (tp_right tp)) = true)).
  { destruct (1 <? n_lines (notes_of (tp_right tp))); cbn [glay] in A3.
    - right. split; [eexists; exact A3|reflexivity].
    - destruct m; [left; auto|right; split; [eexists; exact A3|discriminate]]. }
  destruct LN as [[LN [-> ->]]|[[b ->] LN]]; cbn [app omarks].
  - split; [apply Sit|]. intros _ Pl Nc. rewrite omarks_app, X5, app_nil_r.
    destruct (expr_edges o pc (snd x) anc fo0 Flat x4 So Sh A4) as [[w [q [-> W]]] _].
    specialize (proj1 (Ec Pl)) as Cn. rewrite Nc in Cn.
    destruct w as [t|c|k|e|]; try contradiction.
    + reflexivity.
    + exfalso. apply counts_perm, Permutation_sym, Permutation_nil in Cn. discriminate.
    + cbn [omarks]. cbn [opening] in W. cbn [word_tokens]. destruct (etokens e); [destruct (W eq_refl)|reflexivity].
  - destruct m.
    + split; [apply Sit|]. intros Ln. specialize (LN eq_refl). rewrite E2 in LN.
      apply Nat.ltb_lt in LN. lia.
    + split; [apply Sit|apply omarks_begins].
Qed.
Lemma pieces_marks m : forall t tl, Forall2 piece_of t tl -> forall f os,
  glay m (cat (map chain_piece tl)) os ->
  match m with
  | Expanded => tail_marks (on_new_line o) t (omarks f os)
  | Flat => tail_marks (on_same_line o) t (omarks f os)
  end.
Proof.
  induction 1 as [|x tp t tl P _ IH]; intros f os G.
  - cbn [map cat glay] in G. subst os. destruct m; constructor.
  - cbn [map] in G. split_lay G. destruct (piece_marks m x tp f x0 P A) as [ms [E Q]].
    specialize (IH (oflag f x0) y G). rewrite omarks_app, E. destruct x as [op r].
    cbn [fst snd app] in *. destruct m; constructor; assumption.
Qed.

(** The document of a chain. *)
Lemma chain_doc e h t anc fo p : chain e h t -> shaped e -> agree anc p ->
  exists dl tl, fmt o pc anc fo e = node_rule_soft o anc e (rule_chain o (fo_left fo) dl tl) /\
    Forall2 piece_of t tl /\ sort_of h = SoExpr /\ shaped h /\
    exists anc', agree anc' p_item /\ dl = fmt o pc anc' fo0 h.
Proof.
  intros H Sh A. assert (E : exists n l op r, e = EBinary n l op r /\ chain_op (t_kind op) = true)
    by (inversion H; repeat eexists; assumption).
  destruct E as [n [l [op [r [E C]]]]]. subst e.
  rewrite fmt_chain by (apply classify_chain; rewrite is_chain_op_spec; exact C).
  destruct (spine o pc (FBinary op :: anc) l) as [dl tl] eqn:ES.
  destruct (chain_pieces _ h t H Sh n l op r anc p dl tl eq_refl A ES) as [Hd [S1 [S2 [_ [F _]]]]].
  exists dl. eexists. split; [reflexivity|]. split; [exact F|]. auto.
Qed.
Lemma chain_fields m left dl tl os x : glay m (DCat dl (if left : bool then cat (map chain_piece tl)
    else indent (cat (map chain_piece tl)))) os -> x = os ->
  exists y z, glay m dl y /\ glay m (cat (map chain_piece tl)) z /\ x = y ++ z.
Proof.
  intros [y [z [A [B ->]]]] ->. exists y, z. split; [exact A|]. split; [|reflexivity].
  destruct left; [exact B|exact (glay_indent _ _ _ B)].
Qed.

Lemma chain_shape r out p e h t :
  root_shaped r -> in_file o r p e -> ~ skip_asked o p e -> chain e h t ->
  prints (root_doc o pc r) out ->
  exists pre mh mt post h', line_marks out = pre ++ mh ++ mt ++ post /\
    tidy o p_item h h' /\ map fst mh = etokens h' /\
    (tail_marks (on_new_line o) t mt \/ tail_marks (on_same_line o) t mt).
Proof.
  intros Sh I NS Ch [os [L ->]]. pose proof (in_file_shaped o r p _ Sh I) as [Shs _].
  destruct (in_file_segment o pc r p e os Sh I L)
    as [anc [fo [m [pre [os' [post [A [_ [G ->]]]]]]]]]. clear L.
  destruct (chain_doc e h t anc fo p Ch Shs A) as [dl [tl [D [F [S1 [S2 [anc' [A' ->]]]]]]]].
  rewrite D in G. unfold node_rule_soft in G.
  destruct (suppressed o anc e) eqn:ES.
  { destruct NS. exact (suppressed_asked o anc _ p (proj1 (proj2 A)) ES). }
  destruct (node_rule_lay _ _ _ _ _ _ _ ES G) as [x [u [y [U ->]]]]. clear G D.
  unfold rule_chain in U. apply glay_group in U. destruct U as [m' U]. cbv zeta in U.
  destruct (chain_fields _ _ _ _ _ _ U eq_refl) as [u1 [u2 [U1 [U2 ->]]]].
  destruct (shown anc' p_item h S2 ltac:(congruence) A' _ _ U1) as [h' [Th [Eh _]]].
  set (f := oflag true (pre ++ x)).
  pose proof (pieces_marks m' t tl F (oflag f u1) u2 U2) as T.
  rewrite run_marks.
  exists (omarks true (pre ++ x)), (omarks f u1), (omarks (oflag f u1) u2),
    (omarks (oflag (oflag f u1) u2) (y ++ post)), h'.
  split; [|split; [exact Th|split; [rewrite omarks_fst; exact Eh|destruct m'; auto]]].
  rewrite <- ?app_assoc. rewrite app_assoc, omarks_app. f_equal. fold f.
  rewrite omarks_app. f_equal. rewrite omarks_app. reflexivity.
Qed.

Lemma chain_lines r out p e h t :
  root_shaped r -> in_file o r p e -> ~ skip_asked o p e -> chain e h t ->
  match t with (_, x) :: _ => n_newline (notes_of x) = true | [] => False end ->
  prints (root_doc o pc r) out ->
  exists pre mh mt post h', line_marks out = pre ++ mh ++ mt ++ post /\
    tidy o p_item h h' /\ map fst mh = etokens h' /\ tail_marks (on_new_line o) t mt.
Proof.
  intros Sh I NS Ch B [os [L ->]]. pose proof (in_file_shaped o r p _ Sh I) as [Shs _].
  assert (Doc : forall anc fo, agree anc p ->
    suppressed o anc e = false /\
    exists dl tl, fmt o pc anc fo e = node_rule_soft o anc e (rule_chain o (fo_left fo) dl tl) /\
      persistent_chain o tl = true /\
      Forall2 piece_of t tl /\ sort_of h = SoExpr /\ shaped h /\
      exists anc', agree anc' p_item /\ dl = fmt o pc anc' fo0 h).
  { intros anc fo A. split.
    - destruct (suppressed o anc _) eqn:ES; [|reflexivity]. destruct NS.
      exact (suppressed_asked o anc _ p (proj1 (proj2 A)) ES).
    - destruct (chain_doc e h t anc fo p Ch Shs A) as [dl [tl [D [F X]]]].
      exists dl, tl. split; [exact D|]. split; [|split; [exact F|exact X]].
      unfold persistent_chain, persist. rewrite Per. cbn [andb].
      destruct F as [|[op x] tp ? ? P _]; [destruct B|]. destruct P as [_ [-> _]]. exact B. }
  destruct (in_file_exact o pc r p e os Sh) as
    [anc [fo [m [pre [os' [post [A [F [_ [G ->]]]]]]]]]]; [|exact I|exact L|].
  { intros d [anc [fo [A [F [_ ->]]]]]. destruct (Doc anc fo A) as [S [dl [tl [-> [Pt _]]]]].
    apply node_rule_loud; [exact S|]. unfold rule_chain. rewrite Pt. reflexivity. }
  destruct (Doc anc fo A) as [S [dl [tl [D [Pt [Ft [S1 [S2 [anc' [A' ->]]]]]]]]]]. rewrite D in G.
  clear D Doc L.
  destruct (node_rule_lay_exact _ _ _ _ _ _ _ S G) as [x [u [y [U ->]]]]. clear G.
  unfold rule_chain in U. rewrite Pt in U. change (lay Expanded (DCat (fmt o pc anc' fo0 h) (if fo_left fo then cat (map chain_piece tl)
    else indent (cat (map chain_piece tl)))) u) in U. apply lay_glay in U.
  destruct (chain_fields Expanded _ _ _ _ _ U eq_refl) as [u1 [u2 [U1 [U2 ->]]]].
  destruct (shown anc' p_item h S2 ltac:(congruence) A' _ _ U1) as [h' [Th [Eh _]]].
  set (f := oflag true (pre ++ x)).
  pose proof (pieces_marks Expanded t tl Ft (oflag f u1) u2 U2) as T.
  rewrite run_marks.
  exists (omarks true (pre ++ x)), (omarks f u1), (omarks (oflag f u1) u2),
    (omarks (oflag (oflag f u1) u2) (y ++ post)), h'.
  split; [|split; [exact Th|split; [rewrite omarks_fst; exact Eh|exact T]]].
  rewrite <- ?app_assoc. rewrite app_assoc, omarks_app. f_equal. fold f.
  rewrite omarks_app. f_equal. rewrite omarks_app. reflexivity.
Qed.

(** Parentheses around a right hand side. *)
Lemma tail_marks_paren (Q : expr -> list (token * bool) -> Prop) t mt op n b :
  (forall x ms, Q x ms -> shows_item o x ms) -> tail_marks Q t mt -> In (op, EParen n b) t ->
  exists pre b' post, (tidy o p_body b b' \/ b' = b) /\
    map fst mt = pre ++ op :: tLPAREN :: etokens b' ++ tRPAREN :: post.
Proof.
  intros HQ H. induction H as [|op1 r t nl ms mt X H IH]; intros I; [destruct I|].
  destruct I as [E|I].
  - injection E as -> ->. destruct (HQ _ _ X) as [x' [T E]].
    exists []. assert (P : exists b', (tidy o p_body b b' \/ b' = b) /\ x' = EParen n b').
    { inversion T; subst; try (eexists; split; [|reflexivity]; auto; fail).
      match goal with H : tidy_if _ _ _ _ |- _ => inversion H end. }
    destruct P as [b' [P ->]]. exists b', (map fst mt). split; [exact P|].
    cbn [map fst app]. rewrite map_app, E. cbn [etokens app]. rewrite <- app_assoc. reflexivity.
  - destruct (IH I) as [pre [b' [post [P E]]]]. exists (op1 :: map fst ms ++ pre), b', post.
    split; [exact P|]. cbn [map fst app]. rewrite map_app, E, <- app_assoc. reflexivity.
Qed.
Lemma chain_parens r out p e h t op n b :
  root_shaped r -> in_file o r p e -> ~ skip_asked o p e -> chain e h t ->
  In (op, EParen n b) t -> prints (root_doc o pc r) out ->
  exists pre b' post, (tidy o p_body b b' \/ b' = b) /\
    ptokens out = pre ++ op :: tLPAREN :: etokens b' ++ tRPAREN :: post.
Proof.
  intros Sh I NS Ch Ib P. destruct (chain_shape r out p e h t Sh I NS Ch P)
    as [pre [mh [mt [post [h' [E [_ [_ T]]]]]]]].
  assert (X : exists pre' b' post', (tidy o p_body b b' \/ b' = b) /\
    map fst mt = pre' ++ op :: tLPAREN :: etokens b' ++ tRPAREN :: post').
  { destruct T as [T|T]; (eapply tail_marks_paren; [|exact T|exact Ib]); intros ? ? [S _]; exact S. }
  destruct X as [pre' [b' [post' [T' E']]]].
  exists (map fst pre ++ map fst mh ++ pre'), b', (post' ++ map fst post). split; [exact T'|].
  rewrite <- line_marks_tokens, E, !map_app, E'. rewrite <- !app_assoc. cbn [app].
  rewrite <- !app_assoc. reflexivity.
Qed.

(** * Assignments *)

Lemma assignment_lines r out p n l op x :
  root_shaped r -> in_file o r p (EBinary n l op x) -> ~ skip_asked o p (EBinary n l op x) ->
  In (t_kind op) [EQUAL; ASSIGN; SUPER_ASSIGN; TILDE] -> n_newline (notes_of x) = true ->
  prints (root_doc o pc r) out ->
  exists pre op' nl ms post table x', line_marks out = pre ++ (op', nl) :: ms ++ post /\
    restyled (o_assignment_style o) (q_eq p) op op' /\
    tidy o (p_operand (q_eq p) op table) x x' /\ map fst ms = etokens x' /\ begins_line ms.
Proof.
  intros Sh I NS Op B [os [L ->]]. pose proof (in_file_shaped o r p _ Sh I) as [[_ [Sx Shx]] _].
  destruct (in_file_segment o pc r p _ os Sh I L)
    as [anc [fo [m [pre [os' [post [A [_ [G ->]]]]]]]]]. clear L.
  destruct (suppressed o anc (EBinary n l op x)) eqn:ES.
  { destruct NS. exact (suppressed_asked o anc _ p (proj1 (proj2 A)) ES). }
  assert (EC : classify (t_kind op) = Assignment)
    by (destruct Op as [<-|[<-|[<-|[<-|[]]]]]; reflexivity).
  assert (EP : persistent_assignment o op x = true).
  { unfold persistent_assignment, persist. rewrite Per, B, andb_true_r. cbn [andb].
    destruct Op as [<-|[<-|[<-|[<-|[]]]]]; reflexivity. }
  cbn [fmt] in G. rewrite EC in G. unfold node_rule_soft in G.
  destruct (node_rule_lay _ _ _ _ _ _ _ ES G) as [x0 [u [y [U ->]]]]. clear G.
  unfold rule_assignment in U. apply glay_group in U. destruct U as [m' U]. rewrite EP in U.
  destruct U as [u1 [u2 [U1 [[u3 [u4 [U2 [[u5 [u6 [U3 [[u7 [u8 [U4 [U5 ->]]]] ->]]]] ->]]]] ->]]]].
  cbn in U5. cbn [glay] in U2. apply token_lay in U3. apply glay_indent in U4.
  destruct U4 as [v1 [v2 [V1 [V2 ->]]]]. cbn [glay] in V1. subst.
  set (table := match fo_table (rhs_options o anc n op x) with Some b => b | None => false end).
  destruct (child o pc False x (FBinary op :: anc) (p_operand (q_eq p) op table)
                (rhs_options o anc n op x) m' v2 (fmt_holds o pc Cp x Shx)) as [r' [Tr [Er _]]].
  - congruence.
  - unfold rhs_options. destruct (persistent_assignment o op x && is_binary x); [reflexivity|].
    destruct x; try reflexivity. destruct (has_directive DTable anc n && _); reflexivity.
  - intros E. unfold table. rewrite E. reflexivity.
  - apply agree_operand, A.
  - intros [].
  - exact V2.
  - rewrite run_marks. set (f := oflag true (pre ++ x0 ++ u1)).
    exists (omarks true (pre ++ x0 ++ u1)), (norm_token (restyle o anc op)), f, (omarks true v2),
      (omarks (oflag true v2) (y ++ post)), table, r'.
    split; [|split; [apply restyle_restyled, A|split; [exact Tr|split; [rewrite omarks_fst; exact Er|
      apply omarks_begins]]]].
    rewrite <- ?app_assoc. rewrite (app_assoc pre), (app_assoc (pre ++ x0)).
    rewrite <- (app_assoc pre x0 u1). rewrite omarks_app. f_equal. fold f.
    cbn [app omarks word_tokens mark_all map]. f_equal. cbn [app].
    rewrite omarks_app. reflexivity.
Qed.
End Files.

(** * Precedence along a chain *)

Lemma sorted_snoc {A : Type} (R : A -> A -> Prop) l x :
  StronglySorted R l -> Forall (fun y => R y x) l -> StronglySorted R (l ++ [x]).
Proof.
  induction 1 as [|y l S IH F]; intros H; [repeat constructor|]. inversion H; subst.
  constructor; [auto|]. apply Forall_app. split; [exact F|repeat constructor; assumption].
Qed.
Lemma chain_precedence e h t : chain e h t -> everywhere read_by_precedence e ->
  StronglySorted (fun a b => precedence (t_kind (fst b)) <= precedence (t_kind (fst a))) t /\
  Forall (fun x => forall n a op b, snd x = EBinary n a op b -> chain_op (t_kind op) = true ->
            precedence (t_kind (fst x)) < precedence (t_kind op)) t /\
  (forall n l op r, e = EBinary n l op r ->
   Forall (fun x => precedence (t_kind op) <= precedence (t_kind (fst x))) t).
Proof.
  induction 1 as [n l op r C N|n l op r h t C H IH]; intros [Q [Q1 Q2]]; cbn in Q.
  - destruct (Q C) as [_ Qr]. split; [repeat constructor|]. split.
    + constructor; [exact Qr|constructor].
    + intros ? ? ? ? E. injection E as _ _ -> _. constructor; [apply Nat.le_refl|constructor].
  - destruct (Q C) as [Ql Qr]. destruct (IH Q1) as [S [F L]].
    assert (M : Forall (fun x => precedence (t_kind op) <= precedence (t_kind (fst x))) t).
    { assert (El : exists n' l' op' r', l = EBinary n' l' op' r' /\ chain_op (t_kind op') = true)
        by (inversion H; repeat eexists; assumption).
      destruct El as [n' [l' [op' [r' [-> C']]]]]. specialize (Ql _ _ _ _ eq_refl C').
      eapply Forall_impl; [|exact (L _ _ _ _ eq_refl)]. intros x. cbv beta. lia. }
    split; [apply sorted_snoc; [exact S|exact M]|]. split.
    + apply Forall_app. split; [exact F|]. constructor; [exact Qr|constructor].
    + intros ? ? ? ? E. injection E as _ _ -> _. apply Forall_app. split; [exact M|].
      constructor; [apply Nat.le_refl|constructor].
Qed.
