(** Tables: what a cell and a row print. *)
From Coq Require Import List Arith Bool NArith Lia String.
From Verif Require Import Text TextFacts LineEndingModel LineEndingSpec SettingsModel SyntaxKind
  DirectiveModel FmtTree IrModel TableModel FmtModel FmtSpec FmtPathSpec FmtTableSpec FmtProofs
  FmtRunProofs FmtListProofs FmtTidyProofs FmtRootProofs FmtFactProofs FmtPathProofs FmtEdgeProofs
  FmtSkipProofs FmtBlankProofs FmtMarkProofs FmtTableProofs.
Import ListNotations.

(** * Numbers *)

Definition ascii (t : text) : Prop := Forall (fun c => (32 < c < 128)%N) t.
Lemma ascii_len c : (32 < c < 128)%N -> utf8_len c = 1.
Proof. intros [_ H]. unfold utf8_len. apply N.ltb_lt in H. rewrite H. reflexivity. Qed.
Lemma blen_ascii t : ascii t -> blen t = List.length t.
Proof.
  induction 1 as [|c t H F IH]; [reflexivity|].
  change (blen (c :: t)) with (utf8_len c + blen t). rewrite (ascii_len c H), IH. reflexivity.
Qed.
Lemma find_dot_in t : In 46%N t -> find_dot t <> None.
Proof.
  induction t as [|c t IH]; cbn [find_dot]; [intros []|]. destruct (N.eqb_spec c 46) as [->|N].
  - discriminate.
  - intros [E|I]; [contradiction|]. specialize (IH I). destruct (find_dot t); [discriminate|contradiction].
Qed.
Lemma find_dot_none t : ~ In 46%N t -> find_dot t = None.
Proof.
  induction t as [|c t IH]; intros H; [reflexivity|]. cbn [find_dot].
  destruct (N.eqb_spec c 46) as [->|N]; [destruct (H (or_introl eq_refl))|].
  rewrite IH; [reflexivity|]. intros I. apply H. right; exact I.
Qed.
Lemma find_dot_some a b : ascii a -> ~ In 46%N a -> find_dot (a ++ 46%N :: b) = Some (List.length a).
Proof.
  induction 1 as [|c t H F IH]; intros N; cbn [app find_dot]; [reflexivity|].
  destruct (N.eqb_spec c 46) as [->|E]; [destruct (N (or_introl eq_refl))|].
  rewrite IH by (intros I; apply N; right; exact I). rewrite (ascii_len c H). reflexivity.
Qed.
Lemma find_dot_split t k : find_dot t = Some k -> exists a b, t = a ++ 46%N :: b /\ ~ In 46%N a.
Proof.
  revert k. induction t as [|c t IH]; intros k; cbn [find_dot]; [discriminate|].
  destruct (N.eqb_spec c 46) as [->|N].
  - intros _. exists [], t. split; [reflexivity|intros []].
  - destruct (find_dot t) as [i|]; [|discriminate]. intros _.
    destruct (IH i eq_refl) as [a [b [-> H]]]. exists (c :: a), b. split; [reflexivity|].
    intros [E|I]; [contradiction|exact (H I)].
Qed.

Definition token_chars (l : list token) : nat := list_sum (map (fun t => List.length (t_text t)) l).
Definition text_of (v : expr) : nat := token_chars (etokens v).
Lemma literal_units_kind v k : literal_units v k -> Forall ascii_token (etokens v) ->
  exists fw, literal_kind v = Some (Numeric k fw) /\ kind_width (Numeric k fw) = text_of v.
Proof.
  intros U F. destruct U as [n t a b E N|n t N|n t a c E];
    cbn [etokens] in F; inversion F as [|? ? [_ [_ Ac]] _]; subst; change (ascii (t_text t)) in Ac;
    unfold text_of, token_chars; cbn [etokens map list_sum fold_right literal_kind];
    rewrite Nat.add_0_r;
    change (kind_eqb R_DOUBLE_VALUE R_INTEGER_VALUE) with false;
    change (kind_eqb R_DOUBLE_VALUE R_DOUBLE_VALUE) with true;
    change (kind_eqb R_INTEGER_VALUE R_INTEGER_VALUE) with true; cbv iota.
  - exists (Some (List.length b)). unfold decimal_kind. rewrite (blen_ascii _ Ac).
    rewrite E in *. apply Forall_app in Ac. rewrite find_dot_some by tauto.
    rewrite app_length. cbn [List.length kind_width]. unfold DOT_WIDTH. split; [|lia].
    assert (X : forall x y, x + S y - x - 1 = y) by lia. rewrite X. reflexivity.
  - exists None. unfold decimal_kind. rewrite (find_dot_none _ N), (blen_ascii _ Ac).
    split; reflexivity.
  - exists (Some 0). unfold integer_kind. rewrite (blen_ascii _ Ac), E, app_length.
    cbn [List.length kind_width]. unfold DOT_WIDTH. split; [|lia]. rewrite Nat.add_sub. reflexivity.
Qed.
Lemma literal_kind_eq k e other : literal_kind e = Some k -> parse_kind (Some e) other = Some k.
Proof. intros H. destruct e; try discriminate. cbn [parse_kind]. rewrite H. reflexivity. Qed.
Lemma units_kind v k other : units v k -> Forall ascii_token (etokens v) ->
  exists fw, parse_kind (Some v) other = Some (Numeric k fw) /\ kind_width (Numeric k fw) = text_of v.
Proof.
  intros U F. destruct U as [v k U|n op v k Op U].
  - destruct (literal_units_kind v k U F) as [fw [E W]]. exists fw.
    split; [exact (literal_kind_eq _ _ _ E)|exact W].
  - cbn [etokens] in F. inversion F as [|? ? _ F']; subst.
    destruct (literal_units_kind v k U F') as [fw [E W]]. exists fw. cbn [parse_kind].
    assert (S1 : List.length (t_text op) = 1) by (destruct Op as [-> | ->]; reflexivity).
    replace (text_eqb _ _ || text_eqb _ _) with true
      by (destruct Op as [-> | ->]; reflexivity).
    rewrite E, Nat.add_1_r. split; [reflexivity|].
    unfold text_of, token_chars in *. cbn [etokens map list_sum fold_right]. rewrite S1.
    change (fold_right Nat.add 0) with list_sum. rewrite <- W. destruct fw; cbn [kind_width]; lia.
Qed.
Lemma literal_kind_units v iw fw : literal_kind v = Some (Numeric iw fw) ->
  Forall (fun t => t_text t <> []) (etokens v) -> exists k, literal_units v k.
Proof.
  intros H F. destruct v; try discriminate. cbn [literal_kind] in H.
  destruct ts as [|t [|]]; try discriminate. cbn [etokens] in F. inversion F as [|? ? Ne _]; subst.
  destruct (kind_eqb k R_INTEGER_VALUE) eqn:E1; [|destruct (kind_eqb k R_DOUBLE_VALUE) eqn:E2; [|discriminate]].
  - apply kind_eqb_eq in E1. subst k. destruct (exists_last Ne) as [a [c E]].
    eexists. exact (LU_integer _ _ a c E).
  - apply kind_eqb_eq in E2. subst k. destruct (find_dot (t_text t)) as [i|] eqn:D.
    + destruct (find_dot_split _ _ D) as [a [b [E N]]]. eexists. exact (LU_point _ _ a b E N).
    + eexists. apply LU_whole. intros I. exact (find_dot_in _ I D).
Qed.
Lemma kind_units v other iw fw :
  parse_kind (Some v) other = Some (Numeric iw fw) ->
  Forall (fun t => t_text t <> []) (etokens v) -> exists k, units v k.
Proof.
  intros H F.
  assert (L : forall e, literal_kind e = Some (Numeric iw fw) ->
    Forall (fun t => t_text t <> []) (etokens e) -> exists k, units e k).
  { intros e E Fe. destruct (literal_kind_units e _ _ E Fe) as [k U]. exists k. constructor. exact U. }
  destruct v; cbn [parse_kind] in H;
    try (destruct other; discriminate H);
    try (destruct (literal_kind _) as [k'|] eqn:E; [injection H as ->; exact (L _ E F)|destruct other; discriminate H]).
  destruct (text_eqb (t_text op) $"+" || text_eqb (t_text op) $"-") eqn:Op; [|destruct other; discriminate H].
  destruct (literal_kind v) as [[iw' fw'|ps]|] eqn:E; try (destruct other; discriminate H).
  injection H as <- <-. cbn [etokens] in F. inversion F as [|? ? _ F']; subst.
  destruct (literal_kind_units v _ _ E F') as [k U]. exists (S k). apply U_signed; [|exact U].
  apply orb_true_iff in Op. destruct Op as [Op|Op]; apply text_eqb_eq in Op; rewrite Op; tauto.
Qed.

(** * Texts that are not empty *)

Definition nonempty (t : token) : Prop := t_text t <> [].
Lemma without_cr_nonempty x : x <> [] -> without_cr_of_crlf x <> [].
Proof.
  intros N E. unfold without_cr_of_crlf in E.
  assert (L : In (List.length x - 1) (seq 0 (List.length x))).
  { apply in_seq. destruct x; [contradiction|]. cbn [List.length]. lia. }
  assert (F : In (List.length x - 1) (filter (fun i => negb (crlf_at x i)) (seq 0 (List.length x)))).
  { apply filter_In. split; [exact L|]. unfold crlf_at.
    replace (nth_error x (S (List.length x - 1))) with (@None char);
      [destruct (nth_error x _); reflexivity|].
    symmetry. apply nth_error_None. lia. }
  destruct (filter _ _); [destruct F|discriminate].
Qed.
Lemma retok_nonempty st x y : retok st x y ->
  (Forall nonempty x -> Forall nonempty y) /\ (x <> [] -> y <> []).
Proof.
  assert (B : forall (l : list token) t, l ++ [t] <> []) by (intros [] ?; discriminate).
  induction 1 as [|t|t t' S|t St K|t St K|x x' Nx R [IH IH']|x x' y y' R1 [A A'] R2 [C C']].
  - split; [auto|contradiction].
  - split; [auto|discriminate].
  - split; [|discriminate]. intros F. inversion F as [|? ? N _]; subst. constructor; [|constructor].
    unfold same_token in S. destruct (kind_eqb (t_kind t) STRING_CONTENT); [|subst; exact N].
    unfold nonempty. rewrite (proj2 S). apply without_cr_nonempty, N.
  - split; [|discriminate]. intros _. repeat constructor; discriminate.
  - split; [|discriminate]. intros _. repeat constructor; discriminate.
  - split; [|discriminate]. intros F. constructor; [discriminate|]. apply Forall_app.
    split; [exact (IH F)|]. repeat constructor; discriminate.
  - split.
    + intros F. apply Forall_app in F. apply Forall_app. tauto.
    + intros N E. apply app_eq_nil in E. destruct E as [-> ->].
      destruct x as [|t x]; [|destruct (A' ltac:(discriminate) eq_refl)].
      destruct y as [|t y]; [destruct (N eq_refl)|destruct (C' ltac:(discriminate) eq_refl)].
Qed.

Lemma everywhere_child o Q p e p' x : child_of o p e p' x -> everywhere Q e -> everywhere Q x.
Proof.
  intros C. destruct C; cbn [everywhere opt_all]; intros [_ Ev]; try tauto;
    try (eapply all_of_In; [exact Ev|first [assumption | apply in_elt]]).
Qed.
Lemma everywhere_inside o Q p e p' y : inside o p e p' y -> everywhere Q e -> Q y.
Proof.
  induction 1 as [p e|p e p' x p'' y C I IH]; intros H; [exact (everywhere_self _ _ H)|].
  exact (IH (everywhere_child _ _ _ _ _ _ C H)).
Qed.

(** * Words *)

Definition word_ops (ws : list word) : list op := map (fun w => OStep (SWord w)) ws.
Definition words_width (ws : list word) : nat := list_sum (map word_width ws).
Definition pad (k : nat) : list word := if 0 <? k then [WPad k] else [].
Lemma glay_spaces m k os : glay m (write_spaces k) os -> os = word_ops (pad k).
Proof. unfold write_spaces, pad. destruct (0 <? k); intros H; exact H. Qed.
Lemma pad_width k : words_width (pad k) = k.
Proof.
  unfold pad, words_width. destruct k; [reflexivity|]. change (0 <? S k) with true.
  cbn [map list_sum fold_right word_width]. lia.
Qed.
Lemma words_chars ws : chars (map PWord ws) = words_width ws.
Proof.
  unfold chars, words_width. rewrite map_map. reflexivity.
Qed.
Lemma chars_app a b : chars (a ++ b) = chars a + chars b.
Proof. unfold chars. rewrite map_app, list_sum_app. reflexivity. Qed.
Definition soft_word (w : word) : Prop := w <> WBreak.
Lemma pad_soft k : Forall soft_word (pad k).
Proof. unfold pad. destruct (0 <? k); repeat constructor; discriminate. Qed.
Lemma pad_blank k : blank (map PWord (pad k)).
Proof. unfold pad. destruct (0 <? k); repeat constructor. Qed.

Lemma exec_words : forall ws st h, Forall soft_word ws ->
  exec (st, h) (word_ops ws) =
  match ws with
  | [] => ([], (st, h))
  | _ => ((if p_space st then [PSpace] else []) ++ map PWord ws, (on_line_st, h))
  end.
Proof.
  induction ws as [|w ws IH]; intros st h F; [reflexivity|]. inversion F as [|? ? Sw F']; subst.
  cbn [word_ops map exec fst snd]. fold (word_ops ws).
  assert (P : print_step st (SWord w) = ((if p_space st then [PSpace] else []) ++ [PWord w], on_line_st))
    by (destruct w; try reflexivity; contradiction).
  rewrite P, (IH _ _ F'). destruct ws as [|w' ws]; [rewrite app_nil_r; reflexivity|].
  cbn [on_line_st p_space app map]. rewrite <- app_assoc. reflexivity.
Qed.
Definition suf (x : gap * text) : op := OSuffix (fst x) (snd x).
Lemma exec_sufs hs : forall st h, exec (st, h) (map suf hs) = ([], (st, h ++ hs)).
Proof.
  induction hs as [|[g c] hs IH]; intros st h; cbn [map exec suf fst snd]; [rewrite app_nil_r; reflexivity|].
  rewrite IH, <- app_assoc. reflexivity.
Qed.

(** At the beginning of a line, or after a space in it. *)
Definition sp (b e : bool) : pstate := {| p_line := b; p_space := b; p_empty := e |}.
Definition lead_space (b : bool) : list piece := if b then [PSpace] else [].

Lemma exec_cell_sep b e h l txt r hs :
  Forall soft_word txt ->
  exec (sp b e, h)
    (word_ops (pad l ++ txt) ++ map suf hs ++
     (word_ops (pad r) ++ [OStep SSpace; OStep (SWord (WTok tCOMMA))]) ++ [OStep SSpace]) =
  ((lead_space b ++ map PWord (pad l)) ++ map PWord txt ++
   (map PWord (pad r) ++ match pad l ++ txt ++ pad r with [] => [] | _ => [PSpace] end) ++
   [PWord (WTok tCOMMA)], (sp true false, h ++ hs)).
Proof.
  intros F.
  assert (F' : Forall soft_word (pad l ++ txt)) by (apply Forall_app; split; [apply pad_soft|exact F]).
  rewrite exec_app, (exec_words _ _ _ F').
  assert (X : forall st, exec (st, h ++ hs) ((word_ops (pad r) ++ [OStep SSpace; OStep (SWord (WTok tCOMMA))]) ++ [OStep SSpace]) =
    (match pad r with
     | [] => (if p_line st || p_space st then [PSpace] else [])
     | _ => (if p_space st then [PSpace] else []) ++ map PWord (pad r) ++ [PSpace]
     end ++ [PWord (WTok tCOMMA)], (sp true false, h ++ hs))).
  { intros st. rewrite <- app_assoc, exec_app, (exec_words _ _ _ (pad_soft r)).
    destruct (pad r) as [|w ws]; cbn [exec app fst snd print_step p_line p_space on_line_st].
    - destruct (p_line st), (p_space st); reflexivity.
    - rewrite <- !app_assoc. reflexivity. }
  destruct (pad l ++ txt) as [|w ws] eqn:E.
  - apply app_eq_nil in E. destruct E as [-> ->]. rewrite exec_app, exec_sufs, X.
    cbn [sp p_line p_space app map lead_space]. destruct (pad r) eqn:Er, b; cbn [map app orb lead_space];
      rewrite <- ?app_assoc; reflexivity.
  - rewrite exec_app, exec_sufs, X. cbn [on_line_st sp p_line p_space app map].
    replace (pad l ++ txt ++ pad r) with ((w :: ws) ++ pad r) by (rewrite <- E, <- app_assoc; reflexivity).
    cbn [app].
    assert (Y : map PWord (w :: ws) = map PWord (pad l) ++ map PWord txt) by (rewrite <- E; apply map_app).
    change (PWord w :: map PWord ws) with (map PWord (w :: ws)). rewrite Y.
    change (if b then [PSpace] else []) with (lead_space b).
    destruct (pad r); cbn [orb map app]; rewrite <- ?app_assoc; reflexivity.
Qed.
Lemma exec_cell_end b e h l txt hs :
  Forall soft_word txt ->
  exec (sp b e, h) (word_ops (pad l ++ txt) ++ map suf hs ++ [OStep SSpace]) =
  match pad l ++ txt with
  | [] => ([], (sp b e, h ++ hs))
  | _ => ((lead_space b ++ map PWord (pad l)) ++ map PWord txt, (sp true false, h ++ hs))
  end.
Proof.
  intros F.
  assert (F' : Forall soft_word (pad l ++ txt)) by (apply Forall_app; split; [apply pad_soft|exact F]).
  rewrite exec_app, (exec_words _ _ _ F'), <- app_assoc, <- map_app.
  destruct (pad l ++ txt) as [|w ws] eqn:E;
    rewrite exec_app, exec_sufs; cbn [exec fst snd print_step sp p_line p_space on_line_st app];
    rewrite ?app_nil_r; unfold lead_space.
  - destruct b; reflexivity.
  - reflexivity.
Qed.

(** * One cell *)

Lemma no_comments e : ecomments e = [] ->
  n_lead (notes_of e) = [] /\ n_dang (notes_of e) = [] /\ n_trail (notes_of e) = [] /\ kids e = [].
Proof.
  rewrite ecomments_eq. unfold wrap_comments. intros H.
  repeat match goal with
  | H : _ ++ _ = [] |- _ => apply app_eq_nil in H; destruct H
  | H : map _ _ = [] |- _ => apply map_eq_nil in H
  end. tauto.
Qed.
Lemma glay_trailing_from m cs : forall k os, glay m (trailing_from k cs) os ->
  exists hs, os = map suf hs /\ (cs = [] -> hs = []).
Proof.
  induction cs as [|c cs IH]; intros k os H.
  - cbn [trailing_from glay] in H. subst. exists []. auto.
  - cbn [trailing_from] in H. split_lay H. split_lay H. split_lay H. lay_nil H.
    cbn [glay] in A, A0. subst. destruct (IH _ _ A1) as [hs [-> _]].
    eexists ((_, _) :: hs). split; [cbn [app map]; rewrite app_nil_r; reflexivity|discriminate].
Qed.
Lemma glay_trailing m cs os : glay m (trailing_comments cs) os ->
  exists hs, os = map suf hs /\ (cs = [] -> hs = []).
Proof. apply glay_trailing_from. Qed.

Section Cell.
Variable o : format_options.
Variable pc : doc -> option (list piece).
Hypothesis Cp : cell_printer pc.

Lemma not_suppressed anc e :
  n_lead (notes_of e) = [] -> match e with ECall _ _ _ => False | _ => True end ->
  suppressed o anc e = false.
Proof.
  intros L C. unfold suppressed, has_directive. rewrite L. cbn [existsb].
  rewrite andb_false_r. destruct e; try reflexivity. contradiction.
Qed.
Lemma glay_node anc e f m os :
  n_lead (notes_of e) = [] -> n_dang (notes_of e) = [] ->
  match e with ECall _ _ _ => False | _ => True end ->
  glay m (node_rule_soft o anc e f) os ->
  exists u hs, glay m f u /\ os = u ++ map suf hs /\ (n_trail (notes_of e) = [] -> hs = []).
Proof.
  intros L D C H. unfold node_rule_soft, node_rule in H. rewrite (not_suppressed _ _ L C), L, D in H.
  split_lay H. split_lay H. split_lay H. split_lay H. lay_nil H. cbn [leading_comments map cat glay] in A.
  cbn [dangling_soft glay] in A1. subst. destruct (glay_trailing _ _ _ A2) as [hs [-> T]].
  exists x0, hs. split; [exact A0|]. split; [rewrite app_nil_r; reflexivity|exact T].
Qed.
Lemma ascii_norm t : ascii_token t -> norm_token t = t.
Proof.
  intros [K _]. unfold norm_token. apply kind_eqb_neq in K. rewrite K. reflexivity.
Qed.
Lemma number_lay v k anc m os : units v k -> ecomments v = [] -> Forall ascii_token (etokens v) ->
  glay m (fmt o pc anc fo0 v) os -> os = word_ops (map WTok (etokens v)).
Proof.
  assert (Lit : forall v k anc m os, literal_units v k -> ecomments v = [] ->
    Forall ascii_token (etokens v) -> glay m (fmt o pc anc fo0 v) os ->
    os = word_ops (map WTok (etokens v))).
  { intros e j a m' os' U E F H.
    assert (X : exists n ks t, e = ELeaf n ks [t]) by (destruct U; eauto). destruct X as [n [ks [t ->]]].
    destruct (no_comments _ E) as [L [D [T _]]]. cbn [fmt] in H.
    destruct (glay_node _ _ _ _ _ L D I H) as [u [hs [G [-> Hs]]]]. rewrite (Hs T). cbn [map].
    rewrite app_nil_r. cbn [map cat] in G. split_lay G. lay_nil G. apply token_lay in A. subst.
    cbn [etokens] in F. inversion F; subst. rewrite ascii_norm by assumption. reflexivity. }
  intros U E F H. destruct U as [v k U|n op v k Op U]; [exact (Lit _ _ _ _ _ U E F H)|].
  destruct (no_comments _ E) as [L [D [T K]]]. cbn [kids] in K. cbn [fmt] in H.
  destruct (glay_node _ _ _ _ _ L D I H) as [u [hs [G [-> Hs]]]]. rewrite (Hs T). cbn [map].
  rewrite app_nil_r. cbn [etokens] in F. inversion F as [|? ? Fo Fv]; subst.
  unfold rule_unary in G. split_lay G. split_lay G. split_lay G. lay_nil G. rewrite app_nil_r.
  apply token_lay in A. subst.
  assert (Tm : is_terminal v = true) by (destruct U; reflexivity).
  rewrite Tm in A0. rewrite andb_false_r in A0. cbn [maybe_space negb glay] in A0. subst.
  destruct (no_comments _ K) as [Lv [Dv [Tv _]]]. unfold has_comments in A1. rewrite Lv, Dv, Tv in A1.
  cbn [andb orb negb] in A1. rewrite (Lit _ _ _ _ _ U K Fv A1), (ascii_norm _ Fo). reflexivity.
Qed.

Definition txt_ok (a : expr) (txt : list word) : Prop :=
  Forall soft_word txt /\ cell_shown o a (map PWord txt).

Definition raw_word (p : piece) : word :=
  match p with PWord w => w | PSpace => WPad 1 | PNewline => WBreak end.
Lemma glay_raw m ps : forall os, glay m (raw_pieces ps) os -> os = word_ops (map raw_word ps).
Proof.
  unfold raw_pieces. induction ps as [|p ps IH]; intros os H; [exact H|].
  cbn [map cat] in H. split_lay H. rewrite (IH _ H). destruct p; cbn [glay] in A; subst; reflexivity.
Qed.
Lemma raw_width ps : words_width (map raw_word ps) = pieces_width ps.
Proof.
  unfold words_width, pieces_width. rewrite map_map. f_equal. apply map_ext. intros []; reflexivity.
Qed.
Lemma raw_tokens ps : ptokens (map PWord (map raw_word ps)) = ptokens ps.
Proof.
  unfold ptokens. induction ps as [|p ps IH]; [reflexivity|]. cbn [map flat_map]. rewrite IH.
  destruct p; reflexivity.
Qed.

Lemma agree_arg anc : agree (FArg :: FArgList :: anc) p_plain.
Proof. apply agree_plain; reflexivity. Qed.

(** The printed text of a cell that is no number. *)
Lemma cell_text_ok anc n v sl ps :
  opt_all (fun x => sort_of x = SoExpr /\ shaped x) v ->
  match v with Some v => written v | None => True end ->
  cell_text pc (arg_info o pc anc (EArg n None v sl)) = Some ps ->
  txt_ok (EArg n None v sl) (map raw_word ps) /\
  (pieces_width ps = 0 <-> v = None) /\ (v = None -> ps = []).
Proof.
  intros Sh W H. destruct (cell_text_prints _ _ _ Cp H) as [os [L ->]].
  assert (One : on_one_line (run os)).
  { unfold cell_text in H. destruct (pc _) as [ps'|]; [|discriminate].
    destruct (existsb _ ps') eqn:Ex; [discriminate|]. injection H as ->.
    apply Forall_forall. intros p Ip. destruct p as [w| |]; [| exact I |].
    - destruct (word_breaks w) eqn:B; [|reflexivity].
      assert (X : existsb (fun p => match p with PNewline => true | PWord w => word_breaks w | PSpace => false end)
        (run os) = true) by (apply existsb_exists; exists (PWord w); split; [exact Ip|exact B]).
      congruence.
    - assert (X : existsb (fun p => match p with PNewline => true | PWord w => word_breaks w | PSpace => false end)
        (run os) = true) by (apply existsb_exists; exists PNewline; split; [exact Ip|reflexivity]).
      congruence. }
  assert (One' : on_one_line (map PWord (map raw_word (run os))) /\ Forall soft_word (map raw_word (run os))).
  { clear -One. induction One as [|p l Hp F [IH1 IH2]]; [split; constructor|].
    destruct p as [w| |]; cbn [map raw_word]; (split; constructor); try assumption; try reflexivity;
      try contradiction; try discriminate.
    intros ->. discriminate. }
  destruct One' as [O1 O2]. cbn [arg_info ai_fields] in L.
  destruct v as [v|].
  - destruct Sh as [So Sh]. cbn [argument_fields] in L.
    destruct (shown o pc Cp _ p_plain v Sh ltac:(rewrite So; discriminate) (agree_arg anc) _ _ L)
      as [v' [Ti [Et _]]].
    assert (Vs : Forall (vop (may_copy o p_plain v)) os).
    { apply (vd_lay _ _ _ _ (fmt_sound o pc Cp _ v (Nat.lt_succ_diag_r _) _ p_plain fo0
               (agree_arg anc) (fits_fo0 p_plain)) L). }
    split; [|split; [|discriminate]].
    + split; [exact O2|]. split; [exact O1|]. exists v'. split; [exact Ti|].
      rewrite raw_tokens, run_tokens. exact Et.
    + split; [|discriminate]. intros Z. exfalso.
      assert (Re : retok (o_assignment_style o) (etokens v) (etokens v')) by exact (tidy_Tok o p_plain v v' Ti Sh).
      destruct (retok_nonempty _ _ _ Re) as [R1 R2]. destruct W as [W1 W2].
      specialize (R2 (some_token v Sh (or_introl So))). specialize (R1 W2).
      assert (Pt : ptokens (run os) = etokens v') by (rewrite run_tokens; exact Et).
      assert (Zero : forall p, In p (run os) -> piece_width p = 0).
      { clear -Z. unfold pieces_width in Z. induction (run os) as [|q l IH]; [intros p []|].
        cbn [map list_sum fold_right] in Z. change (fold_right Nat.add 0) with list_sum in Z.
        intros p [->|Ip]; [lia|apply IH; [lia|exact Ip]]. }
      destruct (etokens v') as [|t ts]; [contradiction|].
      assert (It : In t (ptokens (run os))) by (rewrite Pt; left; reflexivity).
      unfold ptokens in It. apply in_flat_map in It. destruct It as [p [Ip Iw]].
      specialize (Zero p Ip). destruct p as [w| |]; try destruct Iw.
      destruct w as [t'|c|k|y|]; cbn [word_tokens] in Iw; try (destruct Iw; fail).
      * destruct Iw as [->|[]]. inversion R1 as [|? ? N _]; subst. cbn in Zero.
        apply N. apply length_zero_iff_nil, Zero.
      * apply word_run in Ip. destruct Ip as [Ip|[c E]]; [|discriminate].
        pose proof (proj1 (Forall_forall _ _) Vs _ Ip) as V. cbn in V. destruct V as [p' [In' _]].
        apply (everywhere_inside _ _ _ _ _ _ In' W1). apply length_zero_iff_nil, Zero.
  - cbn [argument_fields glay] in L. subst os. split; [|split; [split; reflexivity|reflexivity]].
    split; [exact O2|]. split; [exact O1|]. reflexivity.
Qed.

Definition args_cell (anc : list frame) (c : cell ainfo) (a : expr) : Prop :=
  ce_arg _ c = arg_info o pc anc a /\
  parse_kind (arg_value a) (cell_text pc (arg_info o pc anc a)) = Some (ce_kind _ c).
Definition writing (cs : list column) (j : nat) (c : cell ainfo) : doc :=
  write_cell ainfo own_lead own_trail ai_doc (token_doc tCOMMA) cs j c.

Lemma ascii_unbroken t : ascii_token t -> word_breaks (WTok t) = false.
Proof.
  intros [_ [_ F]]. unfold word_breaks, has_lf. induction F as [|c l Hc F IH]; [reflexivity|].
  cbn [existsb]. rewrite IH, orb_false_r. apply N.eqb_neq. unfold LF. lia.
Qed.
Lemma shown_number a n v sl k : a = EArg n None (Some v) sl -> units v k ->
  Forall ascii_token (etokens v) -> shaped v -> sort_of v = SoExpr ->
  (exists anc m os, glay m (fmt o pc anc fo0 v) os /\ agree anc p_plain /\
     os = word_ops (map WTok (etokens v))) ->
  txt_ok a (map WTok (etokens v)).
Proof.
  intros -> U F Sh So [anc [m [os [L [Ag E]]]]]. split.
  - apply Forall_forall. intros w Iw. apply in_map_iff in Iw. destruct Iw as [t [<- _]]. discriminate.
  - split.
    + apply Forall_forall. intros p Ip. rewrite map_map in Ip. apply in_map_iff in Ip.
      destruct Ip as [t [<- It]]. apply ascii_unbroken. exact (proj1 (Forall_forall _ _) F t It).
    + destruct (shown o pc Cp _ p_plain v Sh ltac:(rewrite So; discriminate) Ag _ _ L) as [v' [Ti [Et _]]].
      exists v'. split; [exact Ti|]. rewrite <- Et, E.
      generalize (etokens v). intros l. induction l as [|t l IH]; [reflexivity|].
      cbn [map word_ops]. change (ptokens (PWord (WTok t) :: map PWord (map WTok l)))
        with (t :: ptokens (map PWord (map WTok l))). rewrite IH. reflexivity.
Qed.
Lemma number_width v : words_width (map WTok (etokens v)) = text_of v.
Proof. unfold words_width, text_of, token_chars. rewrite map_map. reflexivity. Qed.

Lemma cell_ops anc cs j c first n v sl m os :
  args_cell anc c (EArg n None v sl) ->
  opt_all (fun x => sort_of x = SoExpr /\ shaped x) v ->
  cell_shape first (EArg n None v sl, ce_sep _ c) ->
  roomy (nth j cs column_default) (ce_kind _ c) ->
  glay m (writing cs j c) os ->
  exists lo l r txt hs,
    glay m (leading_comments (n_lead n)) lo /\
    os = lo ++ word_ops (pad l ++ txt) ++ map suf hs ++
      (if ce_sep _ c then word_ops (pad r) ++ [OStep SSpace; OStep (SWord (WTok tCOMMA))] else []) ++
      [OStep SSpace] /\
    (n_trail n = [] -> hs = []) /\ txt_ok (EArg n None v sl) txt /\
    (v = None -> txt = []) /\ (v <> None -> 0 < words_width txt) /\
    l + words_width txt + r = span (nth j cs column_default) /\
    (forall x k, v = Some x -> units x k -> l + k = units_end (nth j cs column_default)) /\
    (~ is_number (EArg n None v sl) -> l = 0).
Proof.
  intros [Ea Ek] Sh Shp Ro H. unfold writing, write_cell in H.
  destruct (cell_padding _ _) as [l r] eqn:Pad.
  pose proof (padding_span _ _ _ _ Ro Pad) as Sp.
  split_lay H. split_lay H. split_lay H. split_lay H. split_lay H. lay_nil H.
  apply glay_spaces in A. subst x.
  assert (R : x1 ++ x2 ++ x3 = (if ce_sep _ c
    then word_ops (pad r) ++ [OStep SSpace; OStep (SWord (WTok tCOMMA))] else []) ++ [OStep SSpace]).
  { cbn [glay] in A3. subst x3. destruct (ce_sep _ c).
    - apply glay_spaces in A1. subst x1. split_lay A2. split_lay A2. lay_nil A2.
      apply token_lay in A1. cbn [glay] in A. subst. rewrite <- !app_assoc. reflexivity.
    - cbn [glay] in A1, A2. subst. reflexivity. }
  rewrite app_nil_r, R. clear A1 A2 A3 R. rewrite Ea in A0. cbn [arg_value] in Ek.
  destruct Shp as [Dg [Ld Shp]]. cbn [fst notes_of] in Dg, Ld, Shp.
  destruct (ce_kind _ c) as [iw fw|ps] eqn:Kd.
  - (* a number *)
    destruct v as [v|]; [|cbn [parse_kind] in Ek; destruct (cell_text _ _); discriminate].
    destruct Shp as [Nc [[Wr1 Wr2] As]]. cbn [opt_all] in Sh. destruct Sh as [So Sh].
    destruct (kind_units _ _ _ _ Ek Wr2) as [k U].
    assert (Num : is_number (EArg n None (Some v) sl)) by (exists n, v, sl, k; auto).
    specialize (As Num).
    assert (L0 : n_lead n = []) by (destruct Ld as [Ld|[_ N]]; [exact Ld|destruct (N Num)]).
    destruct (units_kind v k (cell_text pc (arg_info o pc anc (EArg n None (Some v) sl))) U As)
      as [fw' [Ek' Wd]].
    rewrite Ek in Ek'. injection Ek' as -> ->.
    cbn [arg_info ai_doc fmt] in A0.
    destruct (glay_node _ (EArg n None (Some v) sl) _ _ _ L0 Dg I A0) as [u [hs [G [-> Hs]]]]. cbn [notes_of] in Hs.
    cbn [argument_fields] in G. pose proof (number_lay v k _ _ _ U Nc As G) as Eu.
    exists [], l, r, (map WTok (etokens v)), hs.
    split; [rewrite L0; reflexivity|]. split.
    { rewrite Eu. unfold word_ops. rewrite map_app, <- !app_assoc. reflexivity. }
    split; [exact Hs|]. split.
    { refine (shown_number _ n v sl k eq_refl U As Sh So _). eexists _, _, u.
      split; [exact G|]. split; [apply agree_arg|exact Eu]. }
    assert (Pos : 0 < text_of v).
    { unfold text_of, token_chars. pose proof (some_token v Sh (or_introl So)) as Nt.
      destruct (etokens v) as [|t ts]; [contradiction|]. inversion As as [|? ? [_ [Nt' _]] _]; subst.
      cbn [map list_sum fold_right]. destruct (t_text t); [contradiction|]. cbn [List.length]. lia. }
    rewrite number_width. split; [discriminate|]. split; [intros _; exact Pos|].
    split; [rewrite <- Wd; exact Sp|]. split; [|intros N; destruct (N Num)].
    intros x k' E U'. injection E as <-.
    destruct (units_kind v k' (cell_text pc (arg_info o pc anc (EArg n None (Some v) sl))) U' As)
      as [fw2 [Ek' _]].
    rewrite Ek in Ek'. injection Ek' as <- _.
    apply (padding_units _ _ _ _ _ Ro ltac:(rewrite Wd; exact Pos) Pad).
  - (* anything else *)
    assert (Ct : cell_text pc (arg_info o pc anc (EArg n None v sl)) = Some ps) by exact (parse_kind_other _ _ _ Ek).
    assert (Wv : match v with Some v => written v | None => True end)
      by (destruct v; [exact (proj1 (proj2 Shp))|exact I]).
    destruct (cell_text_ok anc n v sl ps Sh Wv Ct) as [Tk [W0 P0]].
    pose proof (padding_other _ _ _ _ Pad) as ->.
    split_lay A0. split_lay A0. split_lay A0. lay_nil A0. rewrite app_nil_r.
    unfold own_lead, own_trail in A, A2. cbn [arg_info ai_node notes_of] in A, A2.
    apply glay_raw in A1. subst x0. destruct (glay_trailing _ _ _ A2) as [hs [-> Hs]].
    exists x, 0, r, (map raw_word ps), hs.
    split; [exact A|]. split; [cbn [pad Nat.ltb app]; rewrite <- !app_assoc; reflexivity|].
    split; [exact Hs|]. split; [exact Tk|]. split; [intros ->; rewrite (P0 eq_refl); reflexivity|].
    rewrite raw_width. cbn [kind_width] in Sp.
    split; [intros Nv; destruct (pieces_width ps); [destruct (Nv (proj1 W0 eq_refl))|lia]|].
    split; [exact Sp|]. split; [|reflexivity].
    intros x0 k -> U. cbn in Shp. destruct Shp as [_ [_ As]].
    specialize (As (ex_intro _ n (ex_intro _ x0 (ex_intro _ sl (ex_intro _ k (conj eq_refl U)))))).
    destruct (units_kind x0 k (cell_text pc (arg_info o pc anc (EArg n None (Some x0) sl))) U As)
      as [fw' [Ek' _]]. rewrite Ek in Ek'. discriminate.
Qed.
End Cell.

(** * Rows *)

Lemma glay_leading m cs : forall os e, glay m (leading_comments cs) os ->
  exists above e', exec (off_line_st e, []) os = (above, (off_line_st e', [])) /\
    comment_lines above /\ (cs = [] -> above = []).
Proof.
  unfold leading_comments. induction cs as [|c cs IH]; intros os e H.
  - cbn [map cat glay] in H. subst. exists [], e. split; [reflexivity|].
    split; [split; [constructor|left; reflexivity]|reflexivity].
  - cbn [map cat] in H. split_lay H. split_lay A. split_lay A. lay_nil A. cbn [glay] in A0. subst x0.
    assert (X : exists b, x = [OStep (SLine b)])
      by (cbn [glay] in A1; destruct (1 <? c_after c); cbn [glay] in A1; subst; eauto).
    destruct X as [b ->]. destruct (IH _ b H) as [above [e' [Ex [[R1 R2] _]]]].
    assert (Ew : exec (off_line_st e, []) [OStep (SWord (WComment (c_text c))); OStep (SLine b)] =
      (PWord (WComment (c_text c)) :: PNewline :: (if b then [PNewline] else []), (off_line_st b, [])))
      by (destruct b; reflexivity).
    exists ((PWord (WComment (c_text c)) :: PNewline :: (if b then [PNewline] else [])) ++ above), e'.
    split; [|split; [split|discriminate]].
    + rewrite app_nil_r. change ([OStep (SWord (WComment (c_text c)))] ++ [OStep (SLine b)])
        with [OStep (SWord (WComment (c_text c))); OStep (SLine b)].
      rewrite exec_app, Ew, Ex. reflexivity.
    + apply Forall_app. split; [|exact R1]. destruct b; repeat constructor.
    + right. destruct R2 as [->|[q ->]].
      * rewrite app_nil_r. destruct b.
        { exists [PWord (WComment (c_text c)); PNewline]. reflexivity. }
        { exists [PWord (WComment (c_text c))]. reflexivity. }
      * eexists. rewrite app_assoc. reflexivity.
Qed.

Lemma held_step_line g c st : p_line st = true ->
  exists a, print_steps st [gap_step g; SWord (WComment c)] = (a, on_line_st) /\ Forall remark a.
Proof.
  intros L. cbn [print_steps]. destruct (print_step st (gap_step g)) as [p1 t1] eqn:E.
  cbn [print_step]. eexists. split; [reflexivity|]. apply Forall_app. split.
  - destruct g as [|e]; cbn [gap_step print_step] in E.
    + injection E as <- _. constructor.
    + rewrite L in E. destruct e; cbn in E; injection E as <- _; repeat constructor.
  - rewrite app_nil_r. destruct (p_space t1); repeat constructor.
Qed.
Lemma held_line h st : p_line st = true ->
  exists a st', print_steps st (held_steps h) = (a, st') /\ p_line st' = true /\ Forall remark a /\
    (h = [] -> a = []).
Proof.
  intros L. destruct h as [|[g c] h].
  - exists [], st. split; [reflexivity|]. split; [exact L|]. split; [constructor|reflexivity].
  - cbn [held_steps flat_map]. change (flat_map _ h) with (held_steps h).
    destruct (held_step_line g c st L) as [a [E R]]. rewrite print_steps_app, E.
    destruct (held_on_line h) as [a2 [E2 R2]]. rewrite E2. exists (a ++ a2), on_line_st.
    split; [reflexivity|]. split; [reflexivity|]. split; [apply Forall_app; auto|discriminate].
Qed.
Lemma exec_line h e : exists after,
  exec (sp true false, h) [OStep (SLine e)] =
    (after ++ repeat PNewline (if e then 2 else 1), (off_line_st e, [])) /\
  Forall remark after /\ (h = [] -> after = []).
Proof.
  destruct (held_line h (sp true false) eq_refl) as [a [st' [E [L [R Z]]]]].
  exists a. split; [|auto]. cbn [exec]. unfold flush. cbn [fst snd]. rewrite E.
  cbn [print_step]. rewrite L. destruct e; cbn; rewrite ?app_nil_r; reflexivity.
Qed.

Section Rows.
Variable o : format_options.
Variable pc : doc -> option (list piece).
Hypothesis Cp : cell_printer pc.
Variable anc : list frame.
Variable cs : list column.

Definition pair (c : cell ainfo) : expr * bool := (ai_node (ce_arg _ c), ce_sep _ c).
Definition good_cell (first : bool) (c : cell ainfo) : Prop :=
  exists n v sl, args_cell o pc anc c (EArg n None v sl) /\
    opt_all (fun x => sort_of x = SoExpr /\ shaped x) v /\
    cell_shape first (EArg n None v sl, ce_sep _ c).
Definition rowing (j : nat) (row : list (cell ainfo)) : doc :=
  write_cells ainfo own_lead own_trail ai_doc (token_doc tCOMMA) cs j row.
Definition inner (c : cell ainfo) : Prop := good_cell false c /\ ~ on_next_line (pair c).
Definition valued (c : cell ainfo) : Prop := arg_value (fst (pair c)) <> None.
Fixpoint seps_ok (row : list (expr * bool)) : Prop :=
  match row with
  | c :: (_ :: _) as r => snd c = true /\ seps_ok r
  | _ => True
  end.

Notation shown_row := (row_shown o (comma_at cs) (point_at cs) (left_at cs)).
Notation at_place := (placed_cell o (point_at cs) (left_at cs)).

Lemma lead_chars j : chars (lead_space (0 <? j)) = lead_in j.
Proof. destruct j; reflexivity. Qed.
Lemma lead_blank b : blank (lead_space b).
Proof. destruct b; repeat constructor. Qed.
Lemma gap_place j n v sl l txt :
  txt_ok o (EArg n None v sl) txt ->
  (forall x k, v = Some x -> units x k -> l + k = units_end (nth j cs column_default)) ->
  (~ is_number (EArg n None v sl) -> l = 0) ->
  at_place j (start_at cs j) (EArg n None v sl)
    (lead_space (0 <? j) ++ map PWord (pad l)) (map PWord txt).
Proof.
  intros [_ Tx] Un No.
  assert (Ch : chars (lead_space (0 <? j) ++ map PWord (pad l)) = lead_in j + l)
    by (rewrite chars_app, lead_chars, words_chars, pad_width; reflexivity).
  split; [apply Forall_app; split; [apply lead_blank|apply pad_blank]|].
  split; [exact Tx|]. rewrite Ch. split.
  - intros n' v' sl' k E U. injection E as _ -> _. unfold point_at, left_at.
    rewrite <- (Un v' k eq_refl U). lia.
  - intros N _. rewrite (No N). unfold left_at. lia.
Qed.
Lemma cell_step_sep j c first m os e h :
  good_cell first c -> n_lead (notes_of (fst (pair c))) = [] -> ce_sep _ c = true ->
  roomy (nth j cs column_default) (ce_kind _ c) ->
  glay m (writing cs j c) os ->
  exists gap txt gap' hs,
    exec (sp (0 <? j) e, h) os = (gap ++ txt ++ gap' ++ [PWord (WTok tCOMMA)], (sp true false, h ++ hs)) /\
    at_place j (start_at cs j) (fst (pair c)) gap txt /\ blank gap' /\
    start_at cs j + chars (gap ++ txt ++ gap') = comma_at cs j /\
    (n_trail (notes_of (fst (pair c))) = [] -> hs = []).
Proof.
  intros [n [v [sl [Ar [Sh Shp]]]]] Ld Se Ro H.
  assert (Ea : fst (pair c) = EArg n None v sl) by (cbn [pair fst]; rewrite (proj1 Ar); reflexivity).
  rewrite Ea in *. cbn [notes_of] in *.
  destruct (cell_ops o pc Cp anc cs j c first n v sl m os Ar Sh Shp Ro H)
    as [lo [l [r [txt [hs [L [-> [Hs [Tx [T0 [T1 [Sp [Un No]]]]]]]]]]]]].
  rewrite Ld in L. cbn [leading_comments map cat glay] in L. subst lo. cbn [app]. rewrite Se.
  exists (lead_space (0 <? j) ++ map PWord (pad l)), (map PWord txt),
    (map PWord (pad r) ++ match pad l ++ txt ++ pad r with [] => [] | _ => [PSpace] end), hs.
  split; [exact (exec_cell_sep (0 <? j) e h l txt r hs (proj1 Tx))|].
  split; [exact (gap_place j n v sl l txt Tx Un No)|].
  split; [apply Forall_app; split; [apply pad_blank|destruct (pad l ++ txt ++ pad r); repeat constructor]|].
  split; [|exact Hs].
  rewrite !chars_app, !words_chars, !pad_width, lead_chars, comma_left. unfold left_at, room.
  rewrite <- Sp.
  destruct (pad l ++ txt ++ pad r) as [|w ws] eqn:E.
  - apply app_eq_nil in E. destruct E as [E1 E]. apply app_eq_nil in E. destruct E as [-> E2].
    unfold pad in E1, E2. destruct l; [|discriminate]. destruct r; [|discriminate]. cbn. lia.
  - assert (Pos : 0 < l + words_width txt + r).
    { destruct v as [v|].
      - specialize (T1 ltac:(discriminate)). lia.
      - rewrite (T0 eq_refl) in *. destruct l, r; try lia. discriminate. }
    destruct (l + words_width txt + r) eqn:Q; [lia|]. change (chars [PSpace]) with 1. lia.
Qed.
Lemma cell_step_end j c first m os e h :
  good_cell first c -> n_lead (notes_of (fst (pair c))) = [] -> ce_sep _ c = false ->
  roomy (nth j cs column_default) (ce_kind _ c) ->
  glay m (writing cs j c) os ->
  exists gap txt st hs,
    exec (sp (0 <? j) e, h) os = (gap ++ txt, (st, h ++ hs)) /\
    at_place j (start_at cs j) (fst (pair c)) gap txt /\
    (st = sp true false \/ st = sp (0 <? j) e /\ ~ valued c) /\
    (n_trail (notes_of (fst (pair c))) = [] -> hs = []).
Proof.
  intros [n [v [sl [Ar [Sh Shp]]]]] Ld Se Ro H.
  assert (Ea : fst (pair c) = EArg n None v sl) by (cbn [pair fst]; rewrite (proj1 Ar); reflexivity).
  unfold valued. rewrite Ea in *. cbn [notes_of arg_value] in *.
  destruct (cell_ops o pc Cp anc cs j c first n v sl m os Ar Sh Shp Ro H)
    as [lo [l [r [txt [hs [L [-> [Hs [Tx [T0 [T1 [Sp [Un No]]]]]]]]]]]]].
  rewrite Ld in L. cbn [leading_comments map cat glay] in L. subst lo. cbn [app]. rewrite Se. cbn [app].
  pose proof (exec_cell_end (0 <? j) e h l txt hs (proj1 Tx)) as Ex.
  destruct (pad l ++ txt) as [|w ws] eqn:E; rewrite Ex.
  - exists [], [], (sp (0 <? j) e), hs. split; [reflexivity|].
    apply app_eq_nil in E. destruct E as [_ ->].
    assert (Nv : v = None) by (destruct v; [specialize (T1 ltac:(discriminate)); cbn in T1; lia|reflexivity]).
    subst v. split; [|split; [right; split; [reflexivity|intros X; exact (X eq_refl)]|exact Hs]].
    split; [constructor|]. split; [exact (proj2 Tx)|]. split; [discriminate|].
    intros _ X. destruct (X eq_refl).
  - exists (lead_space (0 <? j) ++ map PWord (pad l)), (map PWord txt), (sp true false), hs.
    split; [reflexivity|]. split; [exact (gap_place j n v sl l txt Tx Un No)|].
    split; [left; reflexivity|exact Hs].
Qed.

Lemma inner_lead c : inner c -> n_lead (notes_of (fst (pair c))) = [].
Proof.
  intros [[n [v [sl [Ar [Sh [_ [[L|[[F|F] _]] _]]]]]]] N].
  - cbn [pair fst]. rewrite (proj1 Ar). exact L.
  - discriminate.
  - exfalso. apply N. unfold pair. rewrite (proj1 Ar). exact F.
Qed.

Lemma cells_exec m : forall row j os h,
  0 < j -> Forall inner row -> roomy_row ainfo cs j row -> seps_ok (map pair row) ->
  glay m (rowing j row) os ->
  exists line hs,
    exec (sp true false, h) os = (line, (sp true false, h ++ hs)) /\
    shown_row j (start_at cs j) (map pair row) line /\
    (Forall (fun c => n_trail (notes_of (fst (pair c))) = []) row -> hs = []).
Proof.
  induction row as [|c row IH]; intros j os h Pj In Ro Se H.
  - cbn [rowing write_cells glay] in H. subst. exists [], []. split; [cbn; rewrite app_nil_r; reflexivity|].
    split; [constructor|reflexivity].
  - inversion In as [|? ? Ic In']; subst. destruct Ro as [Rc Ro].
    assert (J : (0 <? j) = true) by (apply Nat.ltb_lt; exact Pj).
    unfold rowing in H. cbn [write_cells] in H. split_lay H.
    change (glay m (writing cs j c) x) in A. change (glay m (rowing (S j) row) y) in H.
    rewrite exec_app. destruct (ce_sep _ c) eqn:Sc.
    + destruct (cell_step_sep j c false m x false h (proj1 Ic) (inner_lead c Ic) Sc Rc A)
        as [gap [txt [gap' [hs [E [Pl [Bl [Cm Hs]]]]]]]]. rewrite J in E.
      destruct (IH (S j) y (h ++ hs) ltac:(lia) In' Ro) as [line [hs' [E' [Sh Hs']]]]; [|exact H|].
      { cbn [map seps_ok] in Se. destruct row; [exact I|exact (proj2 Se)]. }
      rewrite E, E'. eexists _, (hs ++ hs'). split; [rewrite (app_assoc h hs hs'); reflexivity|]. split.
      * cbn [map]. replace (pair c) with (fst (pair c), true) by (unfold pair; rewrite Sc; reflexivity).
        replace ((gap ++ txt ++ gap' ++ [PWord (WTok tCOMMA)]) ++ line)
          with (gap ++ txt ++ gap' ++ PWord (WTok tCOMMA) :: line)
          by (rewrite <- !app_assoc; reflexivity).
        apply RS_cell; assumption.
      * intros F. inversion F; subst. rewrite Hs, Hs' by assumption. reflexivity.
    + assert (row = []).
      { destruct row; [reflexivity|]. cbn [map seps_ok] in Se. destruct Se as [Se _].
        cbn [pair snd] in Se. congruence. }
      subst row. cbn [rowing write_cells glay] in H. subst y.
      destruct (cell_step_end j c false m x false h (proj1 Ic) (inner_lead c Ic) Sc Rc A)
        as [gap [txt [st [hs [E [Pl [St Hs]]]]]]]. rewrite J in E, St. rewrite E.
      assert (st = sp true false) by (destruct St as [->|[-> _]]; reflexivity). subst st.
      exists (gap ++ txt), hs. split; [cbn [exec]; rewrite app_nil_r; reflexivity|]. split.
      * cbn [map]. replace (pair c) with (fst (pair c), false) by (unfold pair; rewrite Sc; reflexivity).
        constructor. exact Pl.
      * intros F. inversion F; subst. exact (Hs H1).
Qed.

Definition row_good (c : cell ainfo) (row : list (cell ainfo)) : Prop :=
  (exists first, good_cell first c) /\ (ce_sep _ c = true \/ valued c) /\
  Forall inner row /\ roomy_row ainfo cs 0 (c :: row) /\ seps_ok (map pair (c :: row)).

Lemma row_exec m c row os e :
  row_good c row -> glay m (rowing 0 (c :: row)) os ->
  exists above line hs,
    exec (off_line_st e, []) os = (above ++ line, (sp true false, hs)) /\
    comment_lines above /\ (n_lead (notes_of (fst (pair c))) = [] -> above = []) /\
    shown_row 0 0 (map pair (c :: row)) line /\
    (Forall (fun c => n_trail (notes_of (fst (pair c))) = []) (c :: row) -> hs = []).
Proof.
  intros [[first Gc] [Pr [In [[Rc Ro] Se]]]] H. unfold rowing in H. cbn [write_cells] in H. split_lay H.
  change (glay m (writing cs 0 c) x) in A. change (glay m (rowing 1 row) y) in H.
  destruct Gc as [n [v [sl [Ar [Sh Shp]]]]].
  assert (Ea : fst (pair c) = EArg n None v sl) by (cbn [pair fst]; rewrite (proj1 Ar); reflexivity).
  destruct (cell_ops o pc Cp anc cs 0 c first n v sl m x Ar Sh Shp Rc A)
    as [lo [l [r [txt [hs [L [-> [Hs [Tx [T0 [T1 [Sp [Un No]]]]]]]]]]]]].
  destruct (glay_leading _ _ _ e L) as [above [e' [Ex [Cl Z]]]].
  rewrite Ea. cbn [notes_of].
  rewrite <- app_assoc, exec_app, Ex. change (off_line_st e') with (sp false e').
  destruct (ce_sep _ c) eqn:Sc.
  - pose proof (exec_cell_sep false e' [] l txt r hs (proj1 Tx)) as E1.
    rewrite exec_app, E1. cbn [app].
    destruct (cells_exec m row 1 y hs ltac:(lia) In Ro) as [line [hs' [E' [Rs Hs']]]]; [|exact H|].
    { cbn [map seps_ok] in Se. destruct row; [exact I|exact (proj2 Se)]. }
    rewrite E'. eexists above, _, (hs ++ hs'). split; [reflexivity|]. split; [exact Cl|].
    split; [exact Z|]. split.
    + cbn [map]. replace (pair c) with (EArg n None v sl, true)
        by (unfold pair; rewrite Sc, (proj1 Ar); reflexivity).
      set (gap := lead_space false ++ map PWord (pad l)).
      set (gap' := map PWord (pad r) ++ match pad l ++ txt ++ pad r with [] => [] | _ => [PSpace] end).
      replace ((gap ++ map PWord txt ++ gap' ++ [PWord (WTok tCOMMA)]) ++ line)
        with (gap ++ map PWord txt ++ gap' ++ PWord (WTok tCOMMA) :: line)
        by (rewrite <- !app_assoc; reflexivity).
      apply RS_cell.
      * exact (gap_place 0 n v sl l txt Tx Un No).
      * apply Forall_app. split; [apply pad_blank|]. destruct (pad l ++ txt ++ pad r); repeat constructor.
      * unfold gap, gap'. rewrite !chars_app, !words_chars, !pad_width. cbn [comma_at]. unfold room.
        rewrite <- Sp. destruct (pad l ++ txt ++ pad r) as [|w ws] eqn:E.
        { apply app_eq_nil in E. destruct E as [E2 E]. apply app_eq_nil in E. destruct E as [-> E3].
          unfold pad in E2, E3. destruct l; [|discriminate]. destruct r; [|discriminate]. cbn. lia. }
        { assert (Pos : 0 < l + words_width txt + r).
          { destruct v as [v|].
            - specialize (T1 ltac:(discriminate)). lia.
            - rewrite (T0 eq_refl) in *. destruct l, r; try lia. discriminate. }
          destruct (l + words_width txt + r) eqn:Q; [lia|].
          change (chars [PSpace]) with 1. change (chars (lead_space false)) with 0. lia. }
      * exact Rs.
    + intros F. inversion F as [|? ? F1 F2]; subst. rewrite Ea in F1. rewrite Hs, Hs' by assumption.
      reflexivity.
  - assert (row = []).
    { destruct row; [reflexivity|]. cbn [map seps_ok] in Se. destruct Se as [Se _].
      cbn [pair snd] in Se. congruence. }
    subst row. cbn [rowing write_cells glay] in H. subst y. rewrite app_nil_r.
    destruct Pr as [Pr|Pr]; [congruence|]. unfold valued in Pr. rewrite Ea in Pr. cbn [arg_value] in Pr.
    pose proof (exec_cell_end false e' [] l txt hs (proj1 Tx)) as E1. cbn [app] in E1 |- *.
    rewrite E1. destruct (pad l ++ txt) as [|w ws] eqn:E.
    { apply app_eq_nil in E. destruct E as [_ ->]. specialize (T1 Pr). cbn in T1. lia. }
    eexists above, _, hs. split; [reflexivity|]. split; [exact Cl|]. split; [exact Z|]. split.
    + cbn [map]. replace (pair c) with (EArg n None v sl, false)
        by (unfold pair; rewrite Sc, (proj1 Ar); reflexivity).
      constructor. exact (gap_place 0 n v sl l txt Tx Un No).
    + intros F. inversion F as [|? ? F1 F2]; subst. rewrite Ea in F1. exact (Hs F1).
Qed.

Definition writing_rows (first : bool) (rs : list (list (cell ainfo))) : doc :=
  write_rows ainfo ai_node own_lead own_trail ai_doc (token_doc tCOMMA) cs first rs.
Definition is_good (row : list (cell ainfo)) : Prop :=
  match row with [] => False | c :: r => row_good c r end.

Lemma rows_exec m : forall rs c row e os1 os2,
  row_good c row -> Forall is_good rs ->
  glay m (rowing 0 (c :: row)) os1 -> glay m (writing_rows false rs) os2 ->
  exists body,
    exec (off_line_st e, []) ((os1 ++ os2) ++ [OStep (SLine false)]) =
      (body ++ [PNewline], (off_line_st false, [])) /\
    rows_shown o (comma_at cs) (point_at cs) (left_at cs) (map (map pair) ((c :: row) :: rs)) body.
Proof.
  assert (One : forall c row e os1, row_good c row -> glay m (rowing 0 (c :: row)) os1 ->
    exists above line hs, exec (off_line_st e, []) os1 = (above ++ line, (sp true false, hs)) /\
      forall b, exists ps, (above ++ line) ++ fst (exec (sp true false, hs) [OStep (SLine b)]) =
          ps ++ repeat PNewline (if b then 2 else 1) /\
        snd (exec (sp true false, hs) [OStep (SLine b)]) = (off_line_st b, []) /\
        row_lines o (comma_at cs) (point_at cs) (left_at cs) (map pair (c :: row)) ps).
  { intros c row e os1 G H. destruct (row_exec m c row os1 e G H) as [above [line [hs [E [Cl [Z [Rs Hs]]]]]]].
    exists above, line, hs. split; [exact E|]. intros b.
    destruct (exec_line hs b) as [after [Ea [Ra Za]]]. rewrite Ea. cbn [fst snd].
    exists (above ++ line ++ after). split; [rewrite <- !app_assoc; reflexivity|].
    split; [reflexivity|]. exists above, line, after. split; [reflexivity|]. split; [exact Cl|].
    split; [exact Rs|]. split; [exact Ra|]. split; [exact Z|].
    intros F. apply Za, Hs. apply Forall_forall. intros x Ix.
    exact (proj1 (Forall_forall _ _) F (pair x) (in_map pair _ _ Ix)). }
  induction rs as [|row2 rs IH]; intros c row e os1 os2 G Gs H1 H2.
  - cbn [writing_rows write_rows glay] in H2. subst os2. rewrite app_nil_r.
    destruct (One c row e os1 G H1) as [above [line [hs [E Nx]]]].
    destruct (Nx false) as [ps [Ep [Es Rl]]].
    rewrite exec_app, E. destruct (exec (sp true false, hs) [OStep (SLine false)]) as [o2 s2].
    cbn [fst snd] in Ep, Es. subst s2. exists ps. rewrite Ep. split; [reflexivity|].
    cbn [map]. constructor. exact Rl.
  - inversion Gs as [|? ? G2 Gs']; subst. destruct row2 as [|c2 row2]; [destruct G2|].
    unfold writing_rows in H2. cbn [write_rows] in H2. split_lay H2. split_lay H2. split_lay H2.
    lay_nil H2. rewrite app_nil_r.
    change (glay m (rowing 0 (c2 :: row2)) x0) in A0. change (glay m (writing_rows false rs) x1) in A1.
    assert (X : exists b, x = [OStep (SLine b)] /\
      (if b then 2 else 1) = 1 + Nat.min 1 (n_lines (notes_of (fst (pair c2))) - 1)).
    { cbn [row_break] in A. cbn [pair fst].
      destruct (n_lines (notes_of (ai_node (ce_arg ainfo c2))) <=? 1) eqn:Le; cbn [glay] in A; subst.
      - exists false. split; [reflexivity|]. apply Nat.leb_le in Le. lia.
      - exists true. split; [reflexivity|]. apply Nat.leb_gt in Le. lia. }
    destruct X as [b [-> Eb]].
    destruct (One c row e os1 G H1) as [above [line [hs [E Nx]]]].
    destruct (Nx b) as [ps [Ep [Es Rl]]].
    destruct (IH c2 row2 b x0 x1 G2 Gs' A0 A1) as [body [Ex Rs]].
    exists (ps ++ repeat PNewline (1 + Nat.min 1 (n_lines (notes_of (fst (pair c2))) - 1)) ++ body).
    split.
    + rewrite <- app_assoc, exec_app, E.
      rewrite <- app_assoc, exec_app.
      destruct (exec (sp true false, hs) [OStep (SLine b)]) as [o2 s2].
      cbn [fst snd] in Ep, Es. subst s2. rewrite Ex, app_assoc, Ep, <- Eb, <- !app_assoc. reflexivity.
    + cbn [map] in *. constructor; [exact Rl|exact Rs].
Qed.
End Rows.
