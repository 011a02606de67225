(** Every gap between two tokens is one of those whose comments have a place. *)
From Coq Require Import List Arith Bool NArith Lia.
From Verif Require Import Text TextFacts SettingsModel SyntaxKind ParseModel ParseSpec FmtTree FmtSpec
  CommentsModel CommentsSpec CommentsProofs AstModel AstReads AstProofs FrontProofs FactorySpec FactoryProofs FactoryTyped
  SourceSpec SourceProofs SourceCommentProofs FmtFactProofs SourceNodeProofs AroundProofs PlaceSpec PlaceProofs PlaceSourceProofs
  BodySpec BodyProofs BesideSpec BesideProofs.
Import ListNotations.

Lemma wide1 e : wide [e] = List.length (etokens e).
Proof. unfold wide. cbn [flat_map]. rewrite app_nil_r. reflexivity. Qed.
Lemma concat_wide l : List.length (List.concat (map etokens l)) = wide l.
Proof. unfold wide. rewrite flat_map_concat_map. reflexivity. Qed.
Lemma sum_wide sep l : list_sum (map (fun z => List.length (etokens z) + sep) l) = wide l + sep * List.length l.
Proof.
  induction l as [|x l IH]; [rewrite Nat.mul_0_r; reflexivity|]. rewrite wide_cons. cbn [map List.length].
  change (list_sum (?a :: ?b)) with (a + list_sum b). rewrite IH. lia.
Qed.
Lemma commas_wide l : List.length (commas (map etokens l)) + 1 = wide l + match l with [] => 1 | _ => List.length l end.
Proof.
  induction l as [|x l IH]; [reflexivity|]. destruct l as [|y l].
  - cbn [map commas List.length]. rewrite wide1. reflexivity.
  - cbn [map] in *. rewrite (wide_cons x). change (commas (etokens x :: etokens y :: map etokens l)) with
      (etokens x ++ tCOMMA :: commas (etokens y :: map etokens l)). rewrite app_length. cbn [List.length] in *. lia.
Qed.
Lemma sequence_at es : forall k, k <= wide es ->
  (exists a c, es = a ++ c /\ k = wide a) \/
  (exists a e c, es = a ++ e :: c /\ wide a < k < wide a + List.length (etokens e)).
Proof.
  induction es as [|e es IH]; intros k Hk; [left; exists [], []; split; [reflexivity|]; unfold wide in *; cbn in *; lia|].
  rewrite wide_cons in Hk. destruct (Nat.eq_dec k 0) as [->|N]; [left; exists [], (e :: es); auto|].
  destruct (le_lt_dec (List.length (etokens e)) k) as [H|H].
  - destruct (IH (k - List.length (etokens e))) as [(a & c & -> & E)|(a & x & c & -> & E)]; [lia| |].
    + left. exists (e :: a), c. rewrite wide_cons. split; [reflexivity|lia].
    + right. exists (e :: a), x, c. rewrite wide_cons. split; [reflexivity|lia].
  - right. exists [], e, es. cbn. split; [reflexivity|lia].
Qed.
Lemma commas_at es : forall k, es <> [] -> k < wide es + List.length es ->
  exists a e c, es = a ++ e :: c /\ wide a + List.length a <= k <= wide a + List.length a + List.length (etokens e).
Proof.
  induction es as [|e es IH]; intros k N Hk; [contradiction|]. rewrite wide_cons in Hk. cbn [List.length] in Hk.
  destruct (le_lt_dec k (List.length (etokens e))) as [H|H].
  - exists [], e, es. cbn. split; [reflexivity|lia].
  - destruct es as [|e1 es]; [cbn in Hk; lia|].
    destruct (IH (k - List.length (etokens e) - 1)) as (a & x & c & -> & E); [discriminate|lia|].
    exists (e :: a), x, c. rewrite wide_cons. cbn [List.length app]. split; [reflexivity|lia].
Qed.

Section Cover.
Variable r : root.
Hypothesis Leaves : forall g n k ts, In (g, ELeaf n k ts) (root_nodes r) -> k = R_STRING_VALUE \/ List.length ts <= 1.
Hypothesis Shapes : forall g e, In (g, e) (root_nodes r) -> shaped e.

Definition inner (e : expr) : Prop := forall g, In (g, e) (root_nodes r) -> forall G, g < G < g + List.length (etokens e) ->
  placed_gap r G.
Lemma below g e h c : In (g, e) (root_nodes r) -> In (h, c) (nodes g e) -> In (h, c) (root_nodes r).
Proof. intros I J. exact (root_below r g e I _ J). Qed.
Lemma listed sep a e c g h : In (h, e) (nodes (g + wide a + sep * List.length a) e) -> In (h, e) (row nodes sep g (a ++ e :: c)).
Proof. intros I. apply in_row. rewrite sum_wide, Nat.add_assoc. exact I. Qed.

Ltac dig := first [ apply nodes_self | apply in_or_app; left; dig | apply in_or_app; right; dig ].
Ltac inside := cbn [nodes opt_list List.length]; right; dig.

Lemma params_inner n l : Forall inner l -> inner (EParams n l).
Proof.
  intros FI g I G HG. cbn [etokens List.length] in HG. rewrite app_length in HG. cbn [List.length] in HG. pose proof (commas_wide l) as Wl.
  destruct l as [|e0 l0]; [replace G with (g + 1) by (unfold wide in *; cbn in *; lia); eapply gap_nothing; eauto|].
  destruct (commas_at (e0 :: l0) (G - g - 1)) as (a & e & c & E & B); [discriminate|cbn [List.length] in *; lia|].
  rewrite E in I, FI. apply Forall_app in FI as [_ FI]. pose proof (Forall_inv FI) as Ie.
  assert (Ine : In (g + 1 + wide a + List.length a, e) (root_nodes r)).
  { apply (below _ _ _ _ I). cbn [nodes]. right. apply (listed 1). rewrite Nat.mul_1_l. apply nodes_self. }
  destruct (Nat.eq_dec G (g + 1 + wide a + List.length a)) as [->|N1].
  { eapply gap_beside, before_parameter. exact I. }
  destruct (Nat.eq_dec G (g + 1 + wide (a ++ [e]) + List.length a)) as [->|N2].
  { eapply gap_beside, after_parameter. exact I. }
  rewrite wide_app, wide1 in N2. apply (Ie _ Ine). lia.
Qed.
Lemma last_split (a : list expr) h : last_of a = Some h -> exists a', a = a' ++ [h].
Proof.
  unfold last_of. intros E. exists (rev (tl (rev a))). rewrite <- (rev_involutive a) at 1.
  destruct (rev a) as [|x l]; [discriminate E|]. injection E as ->. reflexivity.
Qed.
Lemma args_inner n k rc l : Forall inner l -> inner (EArgs n k rc l).
Proof.
  intros FI g I G HG. cbn [etokens List.length] in HG. rewrite app_length in HG. cbn [List.length] in HG. pose proof (commas_wide l) as Wl.
  destruct l as [|e0 l0]; [replace G with (g + 1) by (unfold wide in *; cbn in *; lia); eapply gap_nothing; eauto|].
  destruct (commas_at (e0 :: l0) (G - g - 1)) as (a & e & c & E & B); [discriminate|cbn [List.length] in *; lia|].
  rewrite E in I, FI. apply Forall_app in FI as [_ FI]. pose proof (Forall_inv FI) as Ie.
  assert (Ine : In (g + 1 + wide a + List.length a, e) (root_nodes r)).
  { apply (below _ _ _ _ I). cbn [nodes]. right. apply (listed 1). rewrite Nat.mul_1_l. apply nodes_self. }
  destruct (hole e) eqn:He.
  { assert (W0 : List.length (etokens e) = 0) by (destruct e as [| | | | | | | | | | | | | | | | | |? [] []|]; try discriminate He; reflexivity).
    replace G with (g + 1 + wide a + List.length a) by lia. eapply gap_hole; eauto. }
  destruct (Nat.eq_dec G (g + 1 + wide a + List.length a)) as [->|N1].
  { destruct (last_of a) as [h|] eqn:Ela.
    - destruct (hole h) eqn:Hh.
      + destruct (last_split _ _ Ela) as (a' & ->). rewrite <- app_assoc in I. cbn [app] in I.
        assert (W0 : wide [h] = 0) by (rewrite wide1; destruct h as [| | | | | | | | | | | | | | | | | |? [] []|]; try discriminate Hh; reflexivity).
        replace (g + 1 + wide (a' ++ [h]) + List.length (a' ++ [h])) with (g + 2 + wide a' + List.length a')
          by (rewrite wide_app, app_length, W0; cbn [List.length]; lia).
        eapply gap_behind_hole; eauto.
      + eapply gap_beside. eapply before_argument; [exact I|exact He|]. rewrite Ela. exact Hh.
    - eapply gap_beside. eapply before_argument; [exact I|exact He|]. rewrite Ela. exact Logic.I. }
  destruct (Nat.eq_dec G (g + 1 + wide (a ++ [e]) + List.length a)) as [->|N2].
  { eapply gap_beside, after_argument; [exact I|exact He]. }
  rewrite wide_app, wide1 in N2. apply (Ie _ Ine). lia.
Qed.
Lemma list_inner b l g : Forall inner l -> sequence r b g l -> (forall h e, In (h, e) (row nodes 0 g l) -> In (h, e) (root_nodes r)) ->
  forall G, g <= G <= g + wide l -> placed_gap r G.
Proof.
  intros FI S Sub G HG. destruct (sequence_at l (G - g)) as [(a & c & -> & E)|(a & e & c & -> & E)]; [lia| |].
  - replace G with (g + wide a) by lia. eapply gap_sequence. exact S.
  - apply Forall_app in FI as [_ FI]. pose proof (Forall_inv FI) as Ie.
    refine (Ie (g + wide a) _ G _); [|lia]. apply Sub, (listed 0). rewrite Nat.mul_0_l, Nat.add_0_r. apply nodes_self.
Qed.

Ltac sides := cbn [etokens opt_list List.length app] in *; rewrite ?app_length in *; cbn [List.length app] in *;
  rewrite ?app_length in *; cbn [List.length app] in *; rewrite ?app_length in *; cbn [List.length app] in *.
(** The gap is the one after [p] tokens, or another one. *)
Tactic Notation "gap" constr(G) constr(p) tactic(tac) :=
  let N := fresh "N" in destruct (Nat.eq_dec G p) as [->|N]; [tac|].
(** It is in the child [c], which begins after [h] tokens, or not. *)
Tactic Notation "child" constr(G) constr(h) constr(IH) constr(I) := match type of IH with inner ?c =>
  let H := fresh "H" in
  assert (H : h < G < h + List.length (etokens c) \/ ~ (h < G < h + List.length (etokens c))) by lia;
  destruct H as [H|H]; [refine (IH h _ G H); apply (below _ _ _ _ I); inside|] end.

Lemma wide2 a b : wide [a; b] = List.length (etokens a) + List.length (etokens b).
Proof. rewrite wide_cons, wide1. reflexivity. Qed.
Lemma gap_at G G' : placed_gap r G -> G' = G -> placed_gap r G'.
Proof. intros H ->. exact H. Qed.

Theorem all_inner e : inner e.
Proof.
  induction e as [n k ts|n op a IHa|n a op b IHa IHb|n a op b IHa IHb|n a op b IHa IHb|n nm ps b IHp IHb|n l IHl|n a d IHa IHd|n a IHa
    |n c th el IHc IHt IHe|n nl a IHa|n v s b IHv IHs IHb|n c b IHc IHb|n b IHb|n l IHl|n b IHb|n f a IHf IHa|n k rc l IHl|n nm v sl IHn IHv|n a IHa]
    using expr_ind'; try (apply params_inner; assumption); try (apply args_inner; assumption); intros g I G HG; sides.
  - destruct (Leaves _ _ _ _ I) as [->|L]; [|lia]. replace G with (g + (G - g)) by lia. eapply gap_string; [exact I|lia].
  - gap G (g + 1) (eapply gap_beside, beside_unary; exact I). child G (g + 1) IHa I. lia.
  - gap G (g + wide [a]) (eapply gap_beside, beside_binary; [exact I|left; reflexivity]).
    gap G (g + (wide [a] + 1)) (eapply gap_beside, beside_binary; [exact I|right; left; reflexivity]). rewrite wide1 in *.
    child G g IHa I. child G (g + List.length (etokens a) + 1) IHb I. lia.
  - gap G (g + wide [a]) (eapply gap_beside, beside_extract; [exact I|left; reflexivity]).
    gap G (g + (wide [a] + 1)) (eapply gap_beside, beside_extract; [exact I|right; left; reflexivity]). rewrite wide1 in *.
    child G g IHa I. child G (g + List.length (etokens a) + 1) IHb I. lia.
  - gap G (g + wide [a]) (eapply gap_beside, beside_namespace; [exact I|left; reflexivity]).
    gap G (g + (wide [a] + 1)) (eapply gap_beside, beside_namespace; [exact I|right; left; reflexivity]). rewrite wide1 in *.
    child G g IHa I. child G (g + List.length (etokens a) + 1) IHb I. lia.
  - gap G (g + 1) (eapply gap_header, header_function; exact I).
    gap G (g + 1 + wide [ps]) (eapply gap_body, body_function; exact I). rewrite wide1 in *.
    child G (g + 1) IHp I. child G (g + 1 + List.length (etokens ps)) IHb I. lia.
  - destruct d as [d|]; cbn [Popt opt_list] in *.
    + gap G (g + wide [a]) (eapply gap_beside, beside_parameter; exact I). rewrite wide1 in *.
      child G g IHa I. child G (g + List.length (etokens a)) IHd I. lia.
    + child G g IHa I. cbn [List.length] in HG. lia.
  - gap G (g + 1) (eapply gap_beside, beside_default; exact I). child G (g + 1) IHa I. lia.
  - gap G (g + 1) (eapply gap_condition; [exact I|left; reflexivity]).
    gap G (g + 2) (eapply gap_condition; [exact I|right; left; reflexivity]).
    gap G (g + (2 + wide [c])) (eapply gap_condition; [exact I|right; right; left; reflexivity]).
    gap G (g + 3 + wide [c]) (eapply gap_body, body_if; exact I).
    pose proof (Shapes _ _ I) as Sh. cbn [shaped] in Sh.
    destruct el as [el|]; cbn [Popt opt_list List.length] in *.
    + destruct Sh as (_ & _ & [Se _]). destruct el; try discriminate Se.
      gap G (g + 3 + wide [c; th]) (eapply gap_before_else; exact I). rewrite wide2, wide1 in *.
      child G (g + 2) IHc I. child G (g + 3 + List.length (etokens c)) IHt I.
      child G (g + 3 + List.length (etokens c) + List.length (etokens th)) IHe I. lia.
    + rewrite wide1 in *. child G (g + 2) IHc I. child G (g + 3 + List.length (etokens c)) IHt I. lia.
  - gap G (g + 1) (eapply gap_after_else; exact I). child G (g + 1) IHa I. lia.
  - gap G (g + 1) (eapply gap_header, header_for; [exact I|left; reflexivity]).
    gap G (g + 2) (eapply gap_header, header_for; [exact I|right; left; reflexivity]).
    gap G (g + (2 + wide [v])) (eapply gap_header, header_for; [exact I|right; right; left; reflexivity]).
    gap G (g + (3 + wide [v])) (eapply gap_header, header_for; [exact I|right; right; right; left; reflexivity]).
    gap G (g + (3 + wide [v; s])) (eapply gap_header, header_for; [exact I|right; right; right; right; left; reflexivity]).
    gap G (g + 4 + wide [v; s]) (eapply gap_body, body_for; exact I). rewrite wide2, wide1 in *.
    child G (g + 2) IHv I. child G (g + 3 + List.length (etokens v)) IHs I.
    child G (g + 4 + List.length (etokens v) + List.length (etokens s)) IHb I. lia.
  - gap G (g + 1) (eapply gap_header, header_while; [exact I|left; reflexivity]).
    gap G (g + 2) (eapply gap_header, header_while; [exact I|right; left; reflexivity]).
    gap G (g + (2 + wide [c])) (eapply gap_header, header_while; [exact I|right; right; left; reflexivity]).
    gap G (g + 3 + wide [c]) (eapply gap_body, body_while; exact I). rewrite wide1 in *.
    child G (g + 2) IHc I. child G (g + 3 + List.length (etokens c)) IHb I. lia.
  - gap G (g + 1) (eapply gap_body, body_repeat; exact I). child G (g + 1) IHb I. lia.
  - rewrite concat_wide in HG. apply (list_inner true l (g + 1) IHl); [eapply brace_sequence; exact I| |lia].
    intros h e J. apply (below _ _ _ _ I). cbn [nodes]. right. exact J.
  - gap G (g + 1) (eapply gap_paren; [exact I|left; reflexivity]).
    gap G (g + (1 + wide [b])) (eapply gap_paren; [exact I|right; left; reflexivity]). rewrite wide1 in *.
    child G (g + 1) IHb I. lia.
  - gap G (g + wide [f]) (eapply gap_beside, beside_call; exact I). rewrite wide1 in *.
    child G g IHf I. child G (g + List.length (etokens f)) IHa I. lia.
  - destruct nm as [x|], v as [y|]; cbn [Popt opt_list List.length] in *.
    + gap G (g + wide [x]) (eapply gap_named; exact I). rewrite wide1 in *.
      child G g IHn I. child G (g + List.length (etokens x)) IHv I. lia.
    + child G g IHn I. lia.
    + child G (g + 0) IHv I. lia.
    + lia.
  - gap G (g + wide [a]) (eapply gap_name; exact I). rewrite wide1 in *. child G g IHa I. lia.
Qed.
Theorem cover_all G : bom_tokens r <= G <= bom_tokens r + wide (r_exprs r) -> placed_gap r G.
Proof.
  apply (list_inner false (r_exprs r) (bom_tokens r)); [|apply file_sequence|auto].
  apply Forall_forall. intros e _. apply all_inner.
Qed.
End Cover.

Section Source.
Variables (rf : bool) (src : text) (t : ts) (r : root).
Hypothesis W : well_parsed src t.
Hypothesis Cf : conforms t = true.
Hypothesis F : source_root rf src t = Some r.

Theorem every_gap_placed G : bom_tokens r <= G <= bom_tokens r + wide (r_exprs r) -> placed_gap r G.
Proof.
  destruct (source_sits rf src t r W Cf F) as (s & Fe & AF & Co & Site).
  apply cover_all.
  - intros g n k ts I. destruct (Site _ _ I) as (p & t0 & e0 & R & A & _ & E0). apply like_same in E0. cbn in E0. subst e0.
    inversion R; subst. pose proof (at_complete s _ Co _ A) as C. cbn [skel_syn complete] in C.
    destruct (kind_eqb k R_STRING_VALUE) eqn:Ks; [left; apply kind_eqb_eq; exact Ks|right].
    assert (Le : forall l us, leaf_tokens l = Some us -> List.length us = List.length l).
    { clear. induction l as [|[|x] l IH]; cbn; intros us H; [injection H as <-; reflexivity|discriminate H|].
      destruct (leaf_tokens l) as [vs|]; [|discriminate H]. injection H as <-. cbn. f_equal. apply IH. reflexivity. }
    match goal with L : leaf_tokens ?l = Some ts |- _ => rewrite (Le _ _ L); rename l into cs end.
    destruct cs as [|c1 [|c2 cs]]; cbn [List.length]; try lia. exfalso.
    match goal with Fk : form_of k = FoLeaf |- _ => revert C Ks Fk end. clear.
    destruct k; intros C Ks Fk; try discriminate Fk; try discriminate Ks; cbn [ungram] in C; apply andb_prop in C as [C _];
      cbn [obeys map fill] in C; apply andb_prop in C as [_ C]; discriminate C.
  - intros g e I. unfold root_nodes in I. destruct (row_in _ _ _ _ _ I) as (a & x & b & E & J).
    pose proof (source_front_shaped rf src t r F) as Sh. unfold root_shaped in Sh. apply all_of_Forall in Sh. rewrite E in Sh.
    apply Forall_app in Sh as [_ Sh]. exact (nodes_shaped _ _ _ _ J (proj2 (Forall_inv Sh))).
Qed.
End Source.
