(** Where the nodes of the typed tree stand among the tokens of the source, and
    what R reads of their texts there. *)
From Coq Require Import List NArith Bool Arith Lia String Permutation.
From Verif Require Import Text TextFacts LineEndingSpec LineEndingProofs SettingsModel SyntaxKind FmtTree IrModel FmtSpec ParseModel ParseSpec
  ParseProofs ParseTree CommentsModel CommentsSpec AstModel AstReads AstProofs FactorySpec FactoryTyped FactoryProofs FrontProofs
  LexSpec LexProofs LexRunProofs LexAlignProofs LexSourceSpec LexSourceProofs SourceSpec PlaceProofs PlaceSourceProofs
  RReadSpec FmtLineSpec FmtLineProofs RTextSpec RNestProofs RTreeProofs RWideProofs RSoundProofs RSliceProofs RTailProofs RNormProofs.
Import ListNotations.

(** * Tokens with their lexemes *)

Definition counted (xs : list parts) (us : list unit) : Prop :=
  forall l acc, map fst l = map token_of xs ->
  exists k, fold_left add_token l acc = acc ++ k /\ map fst k = all_lex us.
Definition strict (xs : list parts) (us : list unit) : Prop := splits xs us /\ counted xs us.

Lemma strict_nil : strict [] [].
Proof. split; [constructor|]. intros [|x l] acc E; [|discriminate E]. exists []. rewrite app_nil_r. auto. Qed.
Lemma strict_app xs us ys vs : strict xs us -> strict ys vs -> strict (xs ++ ys) (us ++ vs).
Proof.
  intros [S1 C1] [S2 C2]. split; [apply splits_app; assumption|]. intros l acc E. rewrite map_app in E.
  destruct (map_eq_app _ _ _ _ E) as (l1 & l2 & -> & E1 & E2).
  destruct (C1 l1 acc E1) as (k1 & F1 & K1). destruct (C2 l2 (acc ++ k1) E2) as (k2 & F2 & K2).
  exists (k1 ++ k2). rewrite fold_left_app, F1, F2, <- app_assoc. split; [reflexivity|].
  rewrite map_app, K1, K2, all_lex_app. reflexivity.
Qed.
Lemma strict_one x : wordy (p_kind x) = true -> p_kind x <> R_BRACK2 -> plain_kind (p_kind x) = true ->
  plain_text (p_own x) -> strict [x] [unit1 x].
Proof.
  intros W N K P. split; [constructor; [exact K|exact P|constructor]|].
  intros [|[u b] [|? l]] acc E; try discriminate E. cbn [map fst] in E. injection E as ->.
  exists [(p_own x, b)]. split; [|reflexivity]. cbn [fold_left add_token token_of t_kind t_text tk].
  destruct (p_kind x); try discriminate W; try discriminate K; try contradiction; reflexivity.
Qed.
Lemma strict_brack2 x : p_kind x = R_BRACK2 -> p_own x = $"]]" ->
  strict [x] [{| u_lead := p_leading x; u_lex := [$"]"; $"]"]; u_trail := p_trailing x |}].
Proof.
  intros K P. split; [constructor; [exact K|exact P|constructor]|].
  intros [|[u b] [|? l]] acc E; try discriminate E. cbn [map fst] in E. injection E as ->.
  exists [($"]", b); ($"]", false)]. split; [|reflexivity]. unfold token_of. cbn [fold_left add_token t_kind t_text tk].
  rewrite K, P. reflexivity.
Qed.
Lemma add_open m t b : t_kind t = STRING_OPEN -> add_token m (t, b) = m ++ [(t_text t, b)].
Proof. unfold add_token. intros ->. reflexivity. Qed.
Lemma add_join m t b : t_kind t = STRING_CONTENT \/ t_kind t = STRING_CLOSE -> add_token m (t, b) = join_last m (t_text t).
Proof. unfold add_token. intros [->| ->]; reflexivity. Qed.
Lemma strict_str2 a z : p_kind a = STRING_OPEN -> p_kind z = STRING_CLOSE ->
  p_trailing a = [] -> p_leading z = [] -> plain_text (p_own a) ->
  strict [a; z] [{| u_lead := p_leading a; u_lex := [p_own a ++ p_own z]; u_trail := p_trailing z |}].
Proof.
  intros Ka Kz A Z P. split; [constructor; try assumption; constructor|].
  intros [|[u b] [|[v c] [|? l]]] acc E; try discriminate E. cbn [map fst] in E. injection E as -> ->.
  exists [(p_own a ++ p_own z, b)]. split; [|reflexivity]. cbn [fold_left].
  rewrite (add_open _ (token_of a) _ Ka), (add_join _ (token_of z) _ (or_intror Kz)), join_last_app. reflexivity.
Qed.
Lemma strict_str3 a m z : p_kind a = STRING_OPEN -> p_kind m = STRING_CONTENT -> p_kind z = STRING_CLOSE ->
  p_trailing a = [] -> p_leading m = [] -> p_trailing m = [] -> p_leading z = [] -> plain_text (p_own a) ->
  strict [a; m; z] [{| u_lead := p_leading a; u_lex := [p_own a ++ p_own m ++ p_own z]; u_trail := p_trailing z |}].
Proof.
  intros Ka Km Kz A M1 M2 Z P. split; [constructor; try assumption; constructor|].
  intros [|[u b] [|[v c] [|[w d] [|? l]]]] acc E; try discriminate E. cbn [map fst] in E. injection E as -> -> ->.
  exists [(p_own a ++ p_own m ++ p_own z, b)]. split; [|reflexivity]. cbn [fold_left].
  rewrite (add_open _ (token_of a) _ Ka), (add_join _ (token_of m) _ (or_introl Km)), (add_join _ (token_of z) _ (or_intror Kz)),
    !join_last_app, <- app_assoc. reflexivity.
Qed.
Lemma tree_strict t : simple (syn_kind t) = true -> complete (skel_syn t) = true ->
  Forall good_word (syn_tokens t) -> tight (syn_tokens t) -> exists us, strict (syn_tokens t) us.
Proof.
  induction t as [k cs IH|x] using syn_ind'; intros S C G T.
  - destruct (kind_eqb k R_STRING_VALUE) eqn:E.
    + apply kind_eqb_eq in E. subst k.
      destruct (string_children cs C) as [[a [z [-> [Ka Kz]]]]|[a [b [z [-> [Ka [Kb Kz]]]]]]];
        cbn [syn_tokens flat_map app] in *; inversion G as [|? ? Ga _]; subst.
      * destruct (T [] a z [] eq_refl ltac:(rewrite Ka; reflexivity)) as [A Z].
        eexists. apply strict_str2; auto using open_plain.
      * destruct (T [] a b [z] eq_refl ltac:(rewrite Ka; reflexivity)) as [A B].
        destruct (T [a] b z [] eq_refl ltac:(rewrite Kb; reflexivity)) as [B' Z].
        eexists. apply strict_str3; auto using open_plain.
    + assert (N1 : k <> R_STRING_VALUE) by (intros ->; rewrite kind_eqb_refl in E; discriminate).
      assert (N2 : k <> R_ROOT) by (intros ->; discriminate S).
      pose proof (node_simple k cs C N1 N2) as F. cbn [syn_tokens] in *. clear S C E N1 N2.
      induction F as [|c cs [Sc Cc] F IHl]; [exists []; exact strict_nil|].
      inversion IH as [|? ? Hc Hr]; subst. cbn [flat_map] in *. apply Forall_app in G as [Gc Gr].
      destruct (Hc Sc Cc Gc) as [uc Uc].
      { apply (tight_infix [] _ (flat_map syn_tokens cs)). exact T. }
      destruct (IHl Hr Gr) as [ur Ur].
      { apply (tight_infix (syn_tokens c) _ []). rewrite app_nil_r. exact T. }
      exists (uc ++ ur). apply strict_app; assumption.
  - cbn [syn_tokens] in *. inversion G as [|? ? Gx _]; subst. unfold syn_kind in S. cbn in S, C.
    destruct (kind_eqb (p_kind x) R_BRACK2) eqn:E.
    + apply kind_eqb_eq in E. eexists. apply strict_brack2; [exact E|].
      destruct Gx as [_ B]. unfold well_spelled in B. rewrite E in B. exact B.
    + assert (N : p_kind x <> R_BRACK2) by (intros K; rewrite K in E; discriminate).
      assert (Wd : wordy (p_kind x) = true).
      { unfold simple in S. destruct (p_kind x); try discriminate; try exact S. }
      destruct (wordy_plain x Wd Gx N) as [A B]. eexists. apply strict_one; assumption.
Qed.
Lemma list_strict cs : Forall (fun c => simple (syn_kind c) = true /\ complete (skel_syn c) = true) cs ->
  Forall good_word (flat_map syn_tokens cs) -> tight (flat_map syn_tokens cs) ->
  exists us, strict (flat_map syn_tokens cs) us.
Proof.
  induction cs as [|c cs IH]; intros F G T; [exists []; exact strict_nil|].
  inversion F as [|? ? [Sc Cc] Fr]; subst. cbn [flat_map] in *. apply Forall_app in G as [Gc Gr].
  destruct (tree_strict c Sc Cc Gc) as [uc Uc].
  { apply (tight_infix [] _ (flat_map syn_tokens cs)). exact T. }
  destruct (IH Fr Gr) as [ur Ur].
  { apply (tight_infix (syn_tokens c) _ []). rewrite app_nil_r. exact T. }
  exists (uc ++ ur). apply strict_app; assumption.
Qed.

(** * Positions *)

Section Positions.
Variables (U : list unit) (toks : list parts).

(** The tokens [xs], with [g] tokens before them. *)
Definition part_at (g : nat) (xs : list parts) : Prop :=
  exists ya a us yb b, toks = ya ++ xs ++ yb /\ List.length ya = g /\
    strict ya a /\ strict xs us /\ strict yb b /\ U = a ++ us ++ b.
Lemma part_at_infix g xs ys zs ux uy uz : strict xs ux -> strict ys uy -> strict zs uz ->
  part_at g (xs ++ ys ++ zs) -> part_at (g + List.length xs) ys.
Proof.
  intros X Y Z (ya & a & us & yb & b & E & L & A & H & B & Eu).
  pose proof (splits_same _ _ (proj1 H) _ (proj1 (strict_app _ _ _ _ X (strict_app _ _ _ _ Y Z)))) as ->.
  exists (ya ++ xs), (a ++ ux), uy, (zs ++ yb), (uz ++ b).
  split; [rewrite E, <- !app_assoc; reflexivity|]. split; [rewrite app_length; lia|].
  split; [apply strict_app; assumption|]. split; [exact Y|]. split; [apply strict_app; assumption|].
  rewrite Eu, <- !app_assoc. reflexivity.
Qed.
Definition fit_at (g : nat) (t : syn) : Prop :=
  simple (syn_kind t) = true /\ complete (skel_syn t) = true /\ Forall good_word (syn_tokens t) /\
  tight (syn_tokens t) /\ part_at g (syn_tokens t).
Lemma fit_at_child g k cs i c : fit_at g (Node k cs) -> k <> R_STRING_VALUE -> nth_error cs i = Some c ->
  fit_at (g + List.length (flat_map syn_tokens (firstn i cs))) c.
Proof.
  intros [S [C [G [T K]]]] N1 H. assert (N2 : k <> R_ROOT) by (intros ->; discriminate S).
  pose proof (node_simple k cs C N1 N2) as F. apply nth_error_split in H as (l1 & l2 & -> & <-).
  rewrite firstn_app, Nat.sub_diag, firstn_O, app_nil_r, firstn_all.
  cbn [syn_tokens] in *. rewrite flat_map_app in *. cbn [flat_map] in *.
  apply Forall_app in F as [F1 F2]. inversion F2 as [|? ? [Sc Cc] F3]; subst.
  apply Forall_app in G as [G1 G2]. apply Forall_app in G2 as [Gc G3].
  assert (T1 : tight (flat_map syn_tokens l1)) by exact (tight_infix [] _ _ T).
  assert (Tc : tight (syn_tokens c)) by exact (tight_infix _ _ _ T).
  assert (T3 : tight (flat_map syn_tokens l2)).
  { apply (tight_infix (flat_map syn_tokens l1 ++ syn_tokens c) _ []). rewrite app_nil_r, <- app_assoc. exact T. }
  destruct (list_strict l1 F1 G1 T1) as [u1 U1]. destruct (tree_strict c Sc Cc Gc Tc) as [uc Uc].
  destruct (list_strict l2 F3 G3 T3) as [u2 U2].
  split; [exact Sc|]. split; [exact Cc|]. split; [exact Gc|]. split; [exact Tc|].
  exact (part_at_infix g _ _ _ _ _ _ U1 Uc U2 K).
Qed.

Variables (l : list syn) (e : parts).
Definition the_root : syn := Node R_ROOT [Node R_EXPRESSION_LIST l; Tok e].
Hypothesis Fl : fit_at 0 (Node R_EXPRESSION_LIST l).
Lemma path_fit p : forall t, at_path the_root p = Some t ->
  p = [] \/ (exists x, t = Tok x) \/ fit_at (PlaceProofs.off the_root p) t.
Proof.
  induction p as [|i q IH]; intros t A; [auto|right]. cbn [at_path] in A.
  destruct (at_path the_root q) as [[k cs|]|] eqn:Aq; try discriminate A.
  destruct (IH _ eq_refl) as [->|[[x Q]|Fq]]; [|discriminate Q|].
  - cbn in Aq. injection Aq as <- <-. destruct i as [|[|i]]; cbn [nth_error] in A.
    + injection A as <-. right. cbn [PlaceProofs.off at_path the_root firstn flat_map List.length Nat.add]. exact Fl.
    + injection A as <-. left. eauto.
    + destruct i; discriminate A.
  - destruct (kind_eqb k R_STRING_VALUE) eqn:E.
    + apply kind_eqb_eq in E. subst k. left. destruct Fq as [_ [C _]].
      destruct (string_children cs C) as [[a [z [-> _]]]|[a [b [z [-> _]]]]];
        destruct i as [|[|[|i]]]; cbn [nth_error] in A; first [discriminate A|injection A as <-; eauto; fail|destruct i; discriminate A].
    + right. cbn [PlaceProofs.off]. rewrite Aq. apply (fit_at_child _ k); [exact Fq| |exact A].
      intros ->. rewrite kind_eqb_refl in E. discriminate.
Qed.
End Positions.

Lemma reads_node pl p g t e : reads pl p g t e ->
  (exists k cs, t = Node k cs /\ form_of k <> form_of R_ROOT) /\ n_src (notes_of e) = trimmed (syn_tokens t).
Proof.
  intros R. inversion R; subst; (split; [|reflexivity]); do 2 eexists; (split; [reflexivity|]);
    match goal with H : form_of ?k = _ |- form_of ?k <> _ => rewrite H; discriminate end.
Qed.

(** Every node of the typed tree. *)
Definition cut_at (U : list unit) (toks : list parts) (y : nat * expr) : Prop :=
  exists ya a xs us yb b, toks = ya ++ xs ++ yb /\ List.length ya = fst y /\
    strict ya a /\ strict xs us /\ strict yb b /\ U = a ++ us ++ b /\
    map token_of xs = etokens (snd y) /\ n_src (notes_of (snd y)) = inner_text us.

Theorem source_cuts rf src t r : well_parsed src t -> conforms t = true -> spelled src t -> read_by_r src t ->
  source_root rf src t = Some r ->
  exists U toks rest, src = all_text U ++ rest /\ Forall unit_ok U /\ units_trivia U rest /\
    aligned Between (all_text U ++ rest) (all_lex U ++ []) /\ strict toks U /\
    map token_of toks = List.concat (map etokens (r_exprs r)) /\ Forall (cut_at U toks) (root_nodes r).
Proof.
  intros W C Sp Rd F. pose proof (source_bom rf src t r W F) as Hbom.
  pose proof (source_front_tokens rf src t r W F) as Rt.
  destruct (source_root_front rf src t r F) as [g [s [P [O H]]]].
  pose proof (front_sited rf s r H) as Si.
  destruct (front_end_reads rf s r H) as [cs [e [lk [l [b [q [n [-> [-> [-> [Ke [Hb [Hn Hl]]]]]]]]]]]]].
  pose proof (open_skel g _ O) as Sk. rewrite Hbom in Hb. destruct Hb as [-> _]. cbn [app] in *.
  destruct (parsed_kept src t W C) as [g' [P' [Cg _]]]. rewrite P in P'. injection P' as <-.
  rewrite <- Sk in Cg. cbn [skel_syn complete ungram map] in Cg. apply andb_prop in Cg as [_ Cg].
  cbn [forallb] in Cg. apply andb_prop in Cg as [Cl _].
  pose proof (open_green_tokens g _ O) as T.
  destruct (tokens_and_trivia_holds src t g W P) as [ps [T' [Fm [Ow [_ Pk]]]]].
  pose proof (comments_kept_holds src t g ps W P T') as Cm.
  rewrite T' in T. apply map_some_inj in T. subst ps.
  pose proof (source_tokens_eq src t g _ W P O) as Te.
  cbn [syn_tokens flat_map] in *. fold (flat_map syn_tokens l) in *. rewrite app_nil_r in *.
  set (toks := flat_map syn_tokens l) in *.
  rewrite own_ranges_app in Ow. cbn [own_ranges] in Ow. apply app_inj_tail in Ow as [Ow _].
  rewrite map_app in Te. apply app_inj_tail in Te as [Te _].
  pose proof Rd as Rd0. destruct Rd0 as [[L [Lx Lc]] [Wd Ti]]. rewrite <- Te in Lc, Wd. rewrite <- Ow in Ti.
  assert (Pt : parts_trivia (toks ++ [e]) []).
  { apply (parts_trivia_from src _ []); [symmetry; exact Fm|exact Pk|].
    intros s0 e0 f Hi. cbn [blen] in Hi. apply (in_map fst) in Hi. rewrite Cm in Hi. cbn [fst] in Hi.
    apply in_flat_map in Hi as [[k s1 e1|s1 e1] [Hi Hx]]; [contradiction|].
    destruct Hx as [Hx|[]]. injection Hx as <- <-. destruct W as [_ [_ La]].
    exact (laid_comment (leaves t) [] src s1 e1 La Hi). }
  apply parts_trivia_app in Pt. apply Forall_app in Pk as [Pk _].
  assert (Tg : tight toks) by (apply tight_from; assumption).
  assert (Gd : Forall good_word toks).
  { unfold spelled in Sp. rewrite <- Te in Sp. rewrite Forall_map in Wd, Sp.
    apply Forall_forall. intros x Hx. rewrite Forall_forall in Wd, Sp. split; [apply Wd, Hx|exact (Sp x Hx)]. }
  assert (Sm : simple (syn_kind (Node R_EXPRESSION_LIST l)) = true) by reflexivity.
  destruct (tree_strict (Node R_EXPRESSION_LIST l) Sm Cl Gd Tg) as [U HU]. cbn [syn_tokens] in HU. fold toks in HU.
  set (rest := flat_map parts_text [e] ++ []) in *.
  assert (Src : src = all_text U ++ rest).
  { rewrite (splits_text _ _ (proj1 HU)). unfold rest. rewrite app_nil_r, <- flat_map_app. symmetry. exact Fm. }
  assert (Ual : aligned Between (all_text U ++ rest) (all_lex U ++ [])).
  { rewrite <- Src, (splits_lex _ _ (proj1 HU)), app_nil_r, <- Lc. split; [split; [exact I|left; exact I]|].
    unfold lex in Lx. destruct (see_all Between src) as [[a p]|] eqn:Sa; [|discriminate].
    destruct (the_end p) as [z|] eqn:Ez; [|discriminate]. injection Lx as <-.
    exists a, p, z. auto. }
  exists U, toks, rest. split; [exact Src|]. split; [exact (splits_ok _ _ (proj1 HU))|].
  split; [exact (splits_trivia _ _ (proj1 HU) _ Pt)|]. split; [exact Ual|]. split; [exact HU|].
  split.
  { rewrite Te, <- Rt. unfold root_tokens. rewrite Hbom. reflexivity. }
  assert (Fl : fit_at U toks 0 (Node R_EXPRESSION_LIST l)).
  { split; [exact Sm|]. split; [exact Cl|]. split; [exact Gd|]. split; [exact Tg|].
    cbn [syn_tokens]. fold toks. exists [], [], U, [], []. rewrite !app_nil_r.
    repeat (split; [first [reflexivity|exact strict_nil|exact HU]|]). reflexivity. }
  eapply Forall_impl; [|exact Si]. clear - Fl. intros [g0 x] (p & t0 & e0 & R & A & Og & Ee). cbn [fst snd] in *.
  destruct (reads_node _ _ _ _ _ R) as [(k & cs & -> & Nk) Src].
  assert (E0 : etokens x = etokens e0 /\ notes_of x = notes_of e0).
  { destruct Ee as [->|[c ->]]; [auto|]. destruct e0; auto. }
  unfold cut_at. cbn [fst snd]. destruct E0 as [-> ->].
  destruct (path_fit U toks l e Fl p _ A) as [->|[[y Q]|[_ [_ [_ [_ (ya & a & us & yb & b & E & Ly & Sa & Sx & Sb & Eu)]]]]]].
  - exfalso. cbn in A. injection A as <- _. apply Nk. reflexivity.
  - discriminate Q.
  - unfold the_root in Ly. rewrite Og in Ly. exists ya, a, (syn_tokens (Node k cs)), us, yb, b.
    split; [exact E|]. split; [exact Ly|]. split; [exact Sa|]. split; [exact Sx|]. split; [exact Sb|]. split; [exact Eu|].
    split; [exact (reads_tokens _ _ _ _ _ R)|]. rewrite Src. exact (trimmed_inner _ _ (proj1 Sx)).
Qed.

(** * What R reads of a node *)

Lemma flag_fst b l : map fst (flag b l) = map fst l.
Proof. destruct l as [|[t f] l]; reflexivity. Qed.
Lemma same_length {A} (a : list A) : forall b c d, a ++ b = c ++ d -> List.length a = List.length c -> a = c /\ b = d.
Proof.
  induction a as [|x a IH]; intros b [|y c] d E L; try discriminate L; [auto|].
  cbn [app] in E. injection E as -> E. injection L as L. destruct (IH _ _ _ E L) as [-> ->]. auto.
Qed.
Lemma inward_first l x b m : inward l -> marked_lexemes l = (x, b) :: m -> b = false.
Proof.
  intros I E. pose proof (quiet_inward l I 0 [] Logic.I) as Q. rewrite app_nil_r, E in Q. destruct Q as [Q _]. auto.
Qed.

Lemma one_more {A} (a : A) x t b : a :: b = x ++ t :: b -> x = [].
Proof. intros E. apply (f_equal (@List.length A)) in E. rewrite app_length in E. cbn in E. destruct x; [reflexivity|cbn in E; lia]. Qed.
Lemma two_more {A} (a c : A) x t b : a :: c :: b = x ++ t :: b -> x = [a].
Proof.
  intros E. pose proof (f_equal (@List.length A) E) as L. rewrite app_length in L. cbn in L. destruct x as [|y [|z x]]; cbn in L; try lia.
  injection E as -> _. reflexivity.
Qed.

Lemma bracketed_lines e : bracketed e -> shaped e -> everywhere node_read e ->
  exists o c l, lines e = (o, false) :: l ++ [(c, false)] /\ nested l /\
    opener (t_kind o) = Some (t_text o) /\ closer (t_kind c) = Some (t_kind o, t_text c).
Proof.
  assert (Com : forall s l, all_of (fun x => sort_of x = s /\ shaped x) l -> all_of (everywhere node_read) l ->
    nested (listed_by_commas (map lines l))).
  { intros s l A B. apply inward_nested, commas_read. induction l as [|x l IH]; [constructor|].
    destruct A as [[_ A1] A2], B as [B1 B2]. constructor; [exact (proj1 (tree_sound x A1 B1))|auto]. }
  destruct e; intros []; intros S [_ R]; cbn [shaped everywhere] in S, R; cbn [lines].
  - exists tLPAREN, tRPAREN, (listed_by_commas (map lines items)). split; [reflexivity|]. split; [exact (Com SoParam _ S R)|]. split; reflexivity.
  - exists tLCURLY, tRCURLY, (statements (map lines es)). split; [reflexivity|]. split; [|split; reflexivity].
    assert (F : Forall (fun l => nested l /\ RRunProofs.calm l /\ headed l) (map lines es)).
    { induction es as [|x l IHl]; [constructor|]. destruct S as [[So S] S'], R as [R1 R2].
      destruct (tree_sound x S R1) as [X H]. constructor; [|apply IHl; assumption].
      split; [exact (inward_nested _ X)|]. split; [exact (inward_calm _ X)|]. apply H, So. }
    exact (proj1 (statements_read _ F)).
  - exists tLPAREN, tRPAREN, (lines e). split; [reflexivity|]. split; [|split; reflexivity].
    exact (inward_nested _ (proj1 (tree_sound _ (proj2 S) R))).
  - exists (l_token k), (r_token k), (listed_by_commas (map lines items)). split; [reflexivity|]. split; [exact (Com SoArg _ S R)|].
    destruct k; split; reflexivity.
Qed.

Section Fits.
Variables (src : text) (U : list unit) (toks : list parts) (rest : text) (pr : list (token * bool)) (is : list item) (stF : rstate).
Hypothesis Src : src = all_text U ++ rest.
Hypothesis Uok : Forall unit_ok U.
Hypothesis Utr : units_trivia U rest.
Hypothesis Ual : aligned Between (all_text U ++ rest) (all_lex U ++ []).
Hypothesis Tok : map token_of toks = map fst pr.
Hypothesis Is : RReadSpec.items src = Some is.
Hypothesis Run : r_items r_start is = Some (marked_lexemes pr, stF).

Lemma node_stretch g e A b B : cut_at U toks (g, e) -> pr = A ++ flag b (lines e) ++ B -> List.length A = g ->
  inward (lines e) -> lines e <> [] ->
  exists I1 I2 st st2, RReadSpec.items (n_src (notes_of e)) = Some I2 /\
    r_items r_start I1 = Some (marked_lexemes A, st) /\
    r_items st I2 = Some (marked_lexemes (flag b (lines e)), st2) /\
    (exists x r, I2 = ILex x :: r /\ LexSpec.is_comment x = false) /\
    (exists r z, I2 = r ++ [ILex z] /\ LexSpec.is_comment z = false).
Proof.
  intros (ya & a & xs & us & yb & ub & Et & Ly & [Sa Ca] & [Sx Cx] & [Sb Cb] & Eu & Ex & En) Ep La In Nl. cbn [fst snd] in *.
  pose proof Tok as Tk. rewrite Et, Ep, !map_app, flag_fst, lines_tokens, <- Ex in Tk.
  apply same_length in Tk as [Ta Tk]; [|rewrite !map_length; lia].
  apply app_inv_head in Tk as Tb.
  assert (Nx : xs <> []).
  { intros ->. cbn in Ex. rewrite <- lines_tokens in Ex. destruct (lines e); [contradiction|discriminate Ex]. }
  assert (Nu : us <> []) by exact (splits_some _ _ Sx Nx).
  destruct (slice_items U rest Uok Utr Ual a us ub Eu Nu) as (I1 & I2 & I3 & J & J2 & C1 & C2 & X & Z).
  rewrite <- Src, Is in J. injection J as ->.
  rewrite r_items_app in Run.
  destruct (r_items r_start I1) as [[m1 st]|] eqn:R1; [|discriminate]. rewrite r_items_app in Run.
  destruct (r_items st I2) as [[m2 st2]|] eqn:R2; [|discriminate].
  destruct (r_items st2 I3) as [[m3 st3]|] eqn:R3; [|discriminate]. injection Run as Run _.
  pose proof (inward_nested _ In) as Ne. destruct (nested_flag b _ Ne) as [Nf _].
  destruct (Ca A [] (eq_sym Ta)) as (k1 & F1 & K1). cbn [app] in F1. fold (marked_lexemes A) in F1.
  assert (Kx : map fst (marked_lexemes (flag b (lines e))) = all_lex us).
  { destruct (Cx (flag b (lines e)) []) as (k2 & F2 & K2); [rewrite flag_fst, lines_tokens; symmetry; exact Ex|].
    cbn [app] in F2. fold (marked_lexemes (flag b (lines e))) in F2. rewrite F2. exact K2. }
  assert (Pm : exists k3, marked_lexemes pr = marked_lexemes A ++ marked_lexemes (flag b (lines e)) ++ k3).
  { rewrite Ep. unfold marked_lexemes at 1. rewrite !fold_left_app. fold (marked_lexemes A).
    rewrite (nested_grow _ Nf). destruct (Cb B (marked_lexemes A ++ marked_lexemes (flag b (lines e))) (eq_sym Tb)) as (k3 & F3 & _).
    exists k3. rewrite F3, <- app_assoc. reflexivity. }
  destruct Pm as [k3 Pm]. rewrite Pm in Run.
  pose proof (r_items_codes _ _ _ _ R1) as D1. pose proof (r_items_codes _ _ _ _ R2) as D2.
  apply same_length in Run as [E1 Run].
  2:{ rewrite <- (map_length fst m1), <- (map_length fst (marked_lexemes A)), D1, C1, F1, K1. reflexivity. }
  apply same_length in Run as [E2 _].
  2:{ rewrite <- (map_length fst m2), <- (map_length fst (marked_lexemes _)), D2, C2, Kx. reflexivity. }
  exists I1, I2, st, st2. rewrite En, <- E1, <- E2. split; [exact J2|].
  auto.
Qed.

Lemma node_fits c g e A b B S h : cut_at U toks (g, e) -> pr = A ++ flag b (lines e) ++ B -> List.length A = g ->
  shaped e -> everywhere node_read e -> reads_normed e -> finish e -> opened_by ([], false) (words_of A) = Some (S, h) ->
  (lines e = [] \/ sort_of e = SoArg \/ sort_of e = SoName -> c = InRound) ->
  h = false /\ c = around S \/ bracketed e -> fitting c e.
Proof.
  intros Cut Ep La Sh Rd Rn Fi Op Rnd Ways. pose proof (proj1 (tree_sound e Sh Rd)) as In.
  pose proof (inward_nested _ In) as Ne.
  assert (Lvl : exists h, opened_by (base, false) (words_of (lines e)) = Some (base, h)) by exact (nested_level _ Ne (base, false)).
  destruct (lines e) as [|p0 l0] eqn:El.
  { assert (c = InRound) as -> by (apply Rnd; left; reflexivity).
    destruct Cut as (ya & a & xs & us & yb & ub & Et & Ly & Sa & [Sx Cx] & Sb & Eu & Ex & En). cbn [fst snd] in *.
    rewrite <- lines_tokens, El in Ex. destruct xs; [|discriminate Ex]. apply splits_nil in Sx. subst us.
    cbn [inner_text] in En. split; [auto|]. exists [], [], (r_inside InRound). rewrite En, El.
    split; [reflexivity|]. split; [exact I|]. split; [reflexivity|]. split; [constructor|]. repeat split. }
  assert (Nl : lines e <> []) by (rewrite El; discriminate). rewrite <- El in *. clear El p0 l0.
  destruct (node_stretch g e A b B Cut Ep La In Nl) as (I1 & I2 & st & st2 & J2 & R1 & R2 & (x & r & Ex & Cx) & (r' & z & Ez & Cz)).
  pose proof (r_items_opened _ _ _ _ R1) as O1. change (rs_open r_start, rs_header r_start) with (@nil opened, false) in O1.
  fold (words_of A) in O1. rewrite Op in O1. injection O1 as O1 O2.
  destruct (nested_flag b _ Ne) as [Nf Mf].
  assert (Wf : map fst (marked_lexemes (flag b (lines e))) = words_of (lines e)).
  { rewrite Mf. unfold words_of. destruct (marked_lexemes (lines e)) as [|[? ?] ?]; reflexivity. }
  assert (Fin : forall bx m' stE, marked_lexemes (flag b (lines e)) = (x, bx) :: m' ->
    r_items (r_inside c) (ILex x :: r) = Some ((x, false) :: m', stE) ->
    rs_open stE = [OSeen c] /\ rs_eats stE = is_round c /\ rs_pause stE = NoBreak /\ rs_header stE = false -> fitting c e).
  { intros bx m' stE Em Re St. split; [intros Q; contradiction|].
    destruct (items_dropped _ _ (eq_trans J2 (f_equal Some Ex))) as (is' & J' & Lk). exists is', (map normed (lines e)), stE.
    rewrite without_drop. split; [exact J'|]. split.
    { inversion Lk as [|? i' ? ? L1 L2]. inversion L1 as [? y' Ly| |]. unfold like_lexeme in Ly. rewrite Cx in Ly.
      rewrite Ly, is_comment_same. exact Cx. }
    split; [|split; [apply same_normed|exact St]]. rewrite (items_read _ _ Lk _ _ _ Re). f_equal. f_equal. rewrite Rn. f_equal.
    rewrite Mf in Em. destruct (marked_lexemes (lines e)) as [|[x0 b0] m0] eqn:E0; [discriminate Em|].
    cbn [mark_first] in Em. injection Em as -> _ ->. rewrite (inward_first _ _ _ _ In E0). reflexivity. }
  rewrite Ex in R2, Ez. destruct Ways as [[-> Cc]|Br].
  - destruct (stretch_fits c st x r z r' _ st2 (eq_trans (f_equal around (eq_sym O1)) (eq_sym Cc)) (eq_sym O2) Cx Cz Ez R2) as (bx & m' & stE & Em & Re & St).
    + rewrite Wf. exact Lvl.
    + rewrite Wf. unfold finish in Fi. destruct (sort_of e); try exact (ends_off _ Fi); destruct Fi as [_ [Q|Q]]; try exact Q; contradiction.
    + rewrite Wf. unfold finish in Fi. destruct (sort_of e) eqn:So; try (left; exact (ends_settles _ Fi)); right; apply Rnd; auto.
    + exact (Fin bx m' stE Em Re St).
  - destruct (bracketed_lines e Br Sh Rd) as (o & cl & l & El & Nn & Oo & Oc).
    assert (Wl : words_of (lines e) = t_text o :: words_of l ++ words_of [(cl, false)]) by (rewrite El; exact (pair_words o cl false false l Oo Oc Nn)).
    pose proof (r_items_codes _ _ _ _ R2) as Dc. rewrite Wf, Wl in Dc. unfold codes in Dc. cbn [flat_map] in Dc. rewrite Cx in Dc.
    cbn [app] in Dc. injection Dc as Dx Dc. fold (codes r) in Dc.
    destruct r' as [|i0 r'].
    { exfalso. cbn [app] in Ez. injection Ez as _ ->. destruct (words_of l); [|discriminate Dc].
      destruct (closer_cases o cl Oo Oc) as [E|[E|[E|E]]]; injection E as -> ->; discriminate Dc. }
    cbn [app] in Ez. injection Ez as <- ->. rewrite codes_app in Dc. unfold codes at 2 in Dc. cbn [flat_map] in Dc. rewrite Cz in Dc. cbn [app] in Dc.
    assert (K : exists xs, words_of l ++ words_of [(cl, false)] = xs ++ [z] /\ opens (kind_of x) <> 0%nat /\ closes (kind_of z) <> 0%nat /\
      exists h, forall X T, opened1 (base, false) x = Some (X ++ T :: base, false) -> opened_by (X ++ base, false) xs = Some (base, h)).
    { pose proof (nested_level l Nn) as Lv. subst x.
      destruct (closer_cases o cl Oo Oc) as [E|[E|[E|E]]]; injection E as -> ->; cbn [t_text tk] in *.
      - change (words_of [(tk R_PAREN $")", false)]) with [$")"] in *. apply app_inj_tail in Dc as [_ <-].
        exists (words_of l). split; [reflexivity|]. split; [discriminate|]. split; [discriminate|].
        destruct (Lv (base, false)) as [h' E]. exists h'. intros X T Q. injection Q as Q.
        apply one_more in Q as ->. exact E.
      - change (words_of [(tk R_CURLY $"}", false)]) with [$"}"] in *. apply app_inj_tail in Dc as [_ <-].
        exists (words_of l). split; [reflexivity|]. split; [discriminate|]. split; [discriminate|].
        destruct (Lv (base, false)) as [h' E]. exists h'. intros X T Q. injection Q as Q.
        apply one_more in Q as ->. exact E.
      - change (words_of [(tk R_BRACK $"]", false)]) with [$"]"] in *. apply app_inj_tail in Dc as [_ <-].
        exists (words_of l). split; [reflexivity|]. split; [discriminate|]. split; [discriminate|].
        destruct (Lv (base, false)) as [h' E]. exists h'. intros X T Q. injection Q as Q.
        apply one_more in Q as ->. exact E.
      - match type of Dc with context [words_of [?p]] => assert (Wb : words_of [p] = [$"]"] ++ [$"]"]) by reflexivity end.
        rewrite Wb in *. rewrite app_assoc in Dc. apply app_inj_tail in Dc as [_ <-].
        exists (words_of l ++ [$"]"]). split; [rewrite <- app_assoc; reflexivity|]. split; [discriminate|]. split; [discriminate|].
        destruct (Lv (OSquare :: base, false)) as [h' E]. exists false. intros X T Q. injection Q as Q.
        apply two_more in Q as ->.
        cbn [app]. rewrite opened_by_app, E. reflexivity. }
    destruct K as (xs & Exs & Kx & Kz & h' & Kh).
    destruct (enclosed_fits c st x r' z _ st2 Kx Kz Cx Cz R2) as (bx & m' & stE & Em & Re & St).
    + exists xs, h'. split; [rewrite Wf, Wl, Exs, Dx; reflexivity|exact Kh].
    + exact (Fin bx m' stE Em Re St).
Qed.
End Fits.
