(** Where the nodes of the typed tree stand in the source. *)
From Coq Require Import List Arith Bool NArith Lia Permutation.
From Verif Require Import Text TextFacts SettingsModel SyntaxKind ParseModel ParseSpec
  ParseProofs ParseTree FmtTree FmtSpec CommentsModel CommentsSpec CommentsProofs AstModel AstReads
  AstProofs FrontProofs SourceSpec.
Import ListNotations.

(** * Windows *)

(** [xs] are elements of [ps], from the [g]th on. *)
Definition window {A} (ps : list A) (g : nat) (xs : list A) : Prop :=
  exists a b, ps = a ++ xs ++ b /\ List.length a = g.
Lemma window_app {A} (ps : list A) g xs ys : window ps g (xs ++ ys) ->
  window ps g xs /\ window ps (g + List.length xs) ys.
Proof.
  intros [a [b [E L]]]. split.
  - exists a, (ys ++ b). rewrite E, <- app_assoc. auto.
  - exists (a ++ xs), b. rewrite E, <- !app_assoc, app_length, L. auto.
Qed.
Lemma window_cons {A} (ps : list A) g x ys : window ps g (x :: ys) ->
  window ps g [x] /\ window ps (g + 1) ys.
Proof. intros W. exact (window_app ps g [x] ys W). Qed.
Lemma window_at {A} (ps : list A) g g' xs : window ps g xs -> g = g' -> window ps g' xs.
Proof. intros W <-. exact W. Qed.

(** * Locating *)

Section Located.
Variable pl : list placement.
Variable root : syn.
Variable ps : list parts.

(** The node of the syntax tree that [e] was read from. *)
Definition located (y : nat * expr) : Prop :=
  exists p t e0, reads pl p (fst y) t e0 /\ at_path root p = Some t /\
    window ps (fst y) (syn_tokens t) /\ (snd y = e0 \/ exists c, snd y = with_separator c e0).

Lemma located_here p g t e : reads pl p g t e -> at_path root p = Some t ->
  window ps g (syn_tokens t) -> located (g, e).
Proof. intros R A W. exists p, t, e. cbn [fst snd]. auto 10. Qed.
Lemma located_separator c p g t e : reads pl p g t e -> at_path root p = Some t ->
  window ps g (syn_tokens t) ->
  Forall located (nodes g e) -> Forall located (nodes g (with_separator c e)).
Proof.
  intros R A W E.
  assert (H : located (g, with_separator c e)) by (exists p, t, e; cbn [fst snd]; eauto 10).
  destruct e; cbn [with_separator] in *; try exact E. apply Forall_inv_tail in E. constructor; [exact H|exact E].
Qed.
Lemma reads_wide p g t e : reads pl p g t e -> List.length (etokens e) = width t.
Proof. intros R. rewrite <- (reads_tokens _ _ _ _ _ R), map_length. reflexivity. Qed.
Lemma separator_tokens c e : etokens (with_separator c e) = etokens e.
Proof. destruct e; reflexivity. Qed.

Ltac child := match goal with
  | A : at_path root ?p = Some (Node _ ?cs) |- at_path root (?i :: ?p) = Some _ =>
    exact (at_child root p _ cs i _ A eq_refl)
  end.
Ltac windows W :=
  repeat match type of W with
  | window _ _ (_ :: _) => let W1 := fresh "W1" in apply window_cons in W as [W1 W]
  | window _ _ (_ ++ _) => let W1 := fresh "W1" in apply window_app in W as [W1 W]
  end.
Ltac there := match goal with
  | W : window ?ps _ ?xs |- window ?ps _ ?xs =>
    apply (window_at _ _ _ _ W); unfold width; cbn [List.length]; lia
  end.

Lemma reads_located p g t e : reads pl p g t e -> reads pl p g t e -> at_path root p = Some t ->
  window ps g (syn_tokens t) -> Forall located (nodes g e).
Proof.
  revert p g t e.
  apply (reads_mind pl
    (fun p g t e => reads pl p g t e -> at_path root p = Some t ->
       window ps g (syn_tokens t) -> Forall located (nodes g e))
    (fun s q i g l es => all_at root q i l ->
       window ps g (flat_map syn_tokens l) -> Forall located (row nodes 0 g es))
    (fun s q i g l es => all_at root q i l ->
       window ps g (flat_map syn_tokens l) -> Forall located (row nodes 1 g es)));
    intros;
    match goal with
    | R : reads _ ?p ?g ?t ?e, A : at_path root ?p = Some ?t, W : window _ ?g (syn_tokens ?t)
      |- Forall located (nodes ?g ?e) =>
      pose proof (located_here p g t e R A W) as HL; cbn [syn_tokens flat_map] in W;
      rewrite ?app_nil_r in W; cbn [app] in W; windows W
    | _ => idtac
    end.
  all: repeat match goal with R : reads _ _ _ _ ?e |- context [List.length (etokens ?e)] =>
         rewrite (reads_wide _ _ _ _ R) end.
  all: try (cbn [nodes opt_list List.length];
    repeat match goal with R : reads _ _ _ _ ?e |- context [List.length (etokens ?e)] =>
         rewrite (reads_wide _ _ _ _ R) end;
    repeat match goal with
    | |- Forall located (_ :: _) => constructor; [exact HL|]
    | |- Forall located (_ ++ _) => apply Forall_app; split
    | |- Forall located [] => constructor
    | IH : _ -> at_path root ?q = Some _ -> _ -> Forall located (nodes _ ?e) |- Forall located (nodes _ ?e) =>
      rewrite ?Nat.add_0_r; apply IH; [assumption|child|there]
    | IH : all_at root _ _ ?l -> _ -> Forall located (row _ _ _ ?es) |- Forall located (row _ _ _ ?es) =>
      apply IH; [eapply all_at_node; child|there]
    end; fail).
  all: try constructor.
  all: cbn [flat_map syn_tokens app] in *; rewrite ?app_nil_r in *; cbn [row];
    match goal with W : window _ _ _ |- _ => windows W end.
  all: fold (row nodes 0); fold (row nodes 1).
  - rewrite (reads_wide _ _ _ _ H), Nat.add_0_r. apply Forall_app. split.
    + apply H0; [assumption|eapply all_at_head; eassumption|assumption].
    + apply H3; [eapply all_at_tail; eassumption|there].
  - rewrite app_nil_r. apply H0; [assumption|eapply all_at_head; eassumption|assumption].
  - rewrite separator_tokens, (reads_wide _ _ _ _ H). apply Forall_app. split.
    + eapply located_separator; [eassumption|eapply all_at_head; eassumption|assumption|].
      apply H0; [assumption|eapply all_at_head; eassumption|assumption].
    + apply H5; [eapply all_at_tail, all_at_tail; eassumption|there].
Qed.
Lemma list_located s q i g l es : reads_list pl s q i g l es -> all_at root q i l ->
  window ps g (flat_map syn_tokens l) -> Forall located (row nodes 0 g es).
Proof.
  induction 1 as [|s q i g x e r es R So _ IH]; intros A W; cbn [row]; [constructor|].
  cbn [flat_map] in W. apply window_app in W as [W1 W]. fold (row nodes 0). apply Forall_app. split.
  - eapply reads_located; eauto. eapply all_at_head, A.
  - rewrite (reads_wide _ _ _ _ R), Nat.add_0_r. apply IH; [eapply all_at_tail, A|exact W].
Qed.
End Located.

Lemma front_located rf t r : front_end rf t = Some r ->
  exists ps z, syn_tokens t = ps ++ [z] /\ p_kind z = EOF /\
    Forall (located (attached t rf) t ps) (root_nodes r).
Proof.
  intros H. unfold root_nodes, bom_tokens.
  destruct (front_end_reads _ _ _ H) as [cs [e [lk [l [b [q [g [-> [-> [-> [Ke [B [_ R]]]]]]]]]]]]].
  destruct (r_bom r) as [x|].
  - destruct B as [y [-> [_ [-> ->]]]]. exists (y :: flat_map syn_tokens l), e.
    cbn [syn_tokens flat_map app]. rewrite ?app_nil_r. split; [reflexivity|]. split; [exact Ke|].
    eapply list_located; [exact R|apply (all_at_node _ [1] R_EXPRESSION_LIST); reflexivity|].
    exists [y], []. rewrite ?app_nil_r. auto.
  - destruct B as [-> [-> ->]]. exists (flat_map syn_tokens l), e.
    cbn [syn_tokens flat_map app]. rewrite ?app_nil_r. split; [reflexivity|]. split; [exact Ke|].
    eapply list_located; [exact R|apply (all_at_node _ [0] R_EXPRESSION_LIST); reflexivity|].
    exists [], []. rewrite ?app_nil_r. auto.
Qed.

(** * Leaves *)

Lemma token_leaves_app a b : token_leaves (a ++ b) = token_leaves a ++ token_leaves b.
Proof. apply flat_map_app. Qed.
Lemma tokens_at_leaves src ls : tokens_at src ls =
  flat_map (fun x => match slice (snd (fst x)) (snd x) src with
                     | Some y => [tk (fst (fst x)) y]
                     | None => []
                     end) (token_leaves ls).
Proof.
  induction ls as [|[k s e|s e] ls IH]; cbn; [reflexivity| |exact IH].
  fold (tokens_at src ls) (token_leaves ls). rewrite IH. reflexivity.
Qed.
Lemma last_end_leaves ls : forall n, fold_left (fun p l => match l with LTok _ _ e => e | LCom _ _ => p end) ls n
  = match rev (token_leaves ls) with (_, _, e) :: _ => e | [] => n end.
Proof.
  induction ls as [|[k s e|s e] ls IH]; intros n; cbn [fold_left].
  - reflexivity.
  - rewrite IH. change (token_leaves (LTok k s e :: ls)) with ((k, s, e) :: token_leaves ls).
    cbn [rev]. destruct (rev (token_leaves ls)) as [|[[? ?] ?] ?]; reflexivity.
  - apply IH.
Qed.
Lemma no_token_leaves ls : no_token ls = match token_leaves ls with [] => true | _ => false end.
Proof. induction ls as [|[k s e|s e] ls IH]; [reflexivity|reflexivity|exact IH]. Qed.

(** * Positions *)

Lemma own_ranges_app a : forall pos b, own_ranges pos (a ++ b) =
  own_ranges pos a ++ own_ranges (pos + blen (flat_map parts_text a)) b.
Proof.
  induction a as [|x a IH]; intros pos b; [cbn; rewrite Nat.add_0_r; reflexivity|].
  cbn [app own_ranges flat_map]. rewrite IH, blen_app, Nat.add_assoc. reflexivity.
Qed.
Lemma trimmed_end_cons x y r : trimmed_end (x :: y :: r) = with_trivia x ++ trimmed_end (y :: r).
Proof. reflexivity. Qed.
Lemma trimmed_trimmed_end x r : trimmed_end (x :: r) = pieces_text (p_leading x) ++ trimmed (x :: r).
Proof. destruct r; [reflexivity|]. cbn [trimmed]. rewrite trimmed_end_cons. unfold with_trivia.
  rewrite <- !app_assoc. reflexivity. Qed.
Lemma trimmed_end_text w z : trimmed_end (w ++ [z]) ++ pieces_text (p_trailing z) =
  flat_map parts_text (w ++ [z]).
Proof.
  induction w as [|x w IH].
  - cbn [app trimmed_end flat_map]. unfold parts_text. rewrite app_nil_r, <- app_assoc. reflexivity.
  - cbn [app]. destruct (w ++ [z]) as [|y r] eqn:E; [destruct w; discriminate|].
    rewrite trimmed_end_cons, <- app_assoc, IH. reflexivity.
Qed.
Lemma own_ranges_tokens src ps : forall pos,
  Forall2 (fun p x => slice (snd (fst x)) (snd x) src = Some (p_own p)) ps (own_ranges pos ps) ->
  map token_of ps = flat_map (fun x => match slice (snd (fst x)) (snd x) src with
                                       | Some y => [tk (fst (fst x)) y]
                                       | None => []
                                       end) (own_ranges pos ps).
Proof.
  induction ps as [|p r IH]; intros pos F; [reflexivity|]. cbn [own_ranges] in F |- *.
  inversion F as [|? ? ? ? A B]. subst. cbn [flat_map map]. rewrite A.
  rewrite <- (IH _ B). reflexivity.
Qed.

Lemma Forall2_same {A B} (R : A -> B -> Prop) l m : Forall2 R l m -> List.length l = List.length m.
Proof. induction 1; cbn; auto. Qed.
Lemma app_same {A} (a : list A) : forall b c d, a ++ c = b ++ d -> List.length a = List.length b ->
  a = b /\ c = d.
Proof.
  induction a as [|x a IH]; intros [|y b] c d E L; try discriminate L; [auto|].
  cbn in E, L. injection E as -> E. injection L as L. destruct (IH _ _ _ E L) as [-> ->]. auto.
Qed.

Lemma pieces_none xs : forallb piece_ok xs = true -> blen (pieces_text xs) = 0 -> xs = [].
Proof.
  destruct xs as [|[k x] xs]; [reflexivity|]. cbn [forallb]. intros P E. exfalso.
  apply andb_prop in P as [P _]. unfold pieces_text in E. cbn [flat_map snd] in E. rewrite blen_app in E.
  assert (X : blen x = 0) by lia.
  destruct k; cbn [piece_ok fst snd] in P.
  - rewrite X in P. discriminate.
  - rewrite !orb_true_iff in P. destruct P as [[P|P]|P]; apply text_eqb_eq in P; subst x; discriminate X.
  - destruct x as [|c x]; [discriminate|]. cbn [blen] in X. pose proof (utf8_len_pos c). lia.
Qed.

(** The leaves that some tokens come from. *)
Fixpoint trivia_leaves (pos : nat) (xs : list (tkind * text)) : list leaf :=
  match xs with
  | [] => []
  | (k, x) :: r =>
    match k with Comment => [LCom pos (pos + blen x)] | _ => [] end ++ trivia_leaves (pos + blen x) r
  end.
Definition own_start (pos : nat) (p : parts) : nat := pos + blen (pieces_text (p_leading p)).
Definition own_end (pos : nat) (p : parts) : nat := own_start pos p + blen (p_own p).
Definition own_leaf (pos : nat) (p : parts) : leaf := LTok (p_kind p) (own_start pos p) (own_end pos p).
Definition part_leaves (pos : nat) (p : parts) : list leaf :=
  trivia_leaves pos (p_leading p) ++ own_leaf pos p :: trivia_leaves (own_end pos p) (p_trailing p).
Fixpoint parts_leaves (pos : nat) (ps : list parts) : list leaf :=
  match ps with
  | [] => []
  | p :: r => part_leaves pos p ++ parts_leaves (pos + blen (parts_text p)) r
  end.
Lemma parts_leaves_app a : forall pos b, parts_leaves pos (a ++ b) =
  parts_leaves pos a ++ parts_leaves (pos + blen (flat_map parts_text a)) b.
Proof.
  induction a as [|x a IH]; intros pos b; [cbn; rewrite Nat.add_0_r; reflexivity|].
  cbn [app parts_leaves flat_map]. rewrite IH, blen_app, Nat.add_assoc, app_assoc. reflexivity.
Qed.

(** Leaves one after the other, from [n] to [m]. *)
Fixpoint chain (n : nat) (ls : list leaf) (m : nat) : Prop :=
  match ls with
  | [] => n <= m
  | l :: r => n <= leaf_start l /\ leaf_start l < leaf_end l /\ chain (leaf_end l) r m
  end.
Lemma chain_app a : forall n m k b, chain n a m -> chain m b k -> chain n (a ++ b) k.
Proof.
  induction a as [|l a IH]; intros n m k b A B; cbn [app chain] in *.
  - destruct b as [|l b]; cbn [chain] in *; [lia|]. destruct B as [B1 B]. split; [lia|exact B].
  - destruct A as [A1 [A2 A]]. split; [exact A1|]. split; [exact A2|]. eapply IH; eassumption.
Qed.
Lemma chain_in ls : forall n m l, chain n ls m -> In l ls -> n <= leaf_start l /\ leaf_start l < leaf_end l.
Proof.
  induction ls as [|x ls IH]; intros n m l C Hi; [contradiction|]. destruct C as [C1 [C2 C]].
  destruct Hi as [->|Hi]; [auto|]. destruct (IH _ _ _ C Hi). split; lia.
Qed.
Definition comment_leaves (ls : list leaf) : list (nat * nat) :=
  flat_map (fun l => match l with LCom s e => [(s, e)] | LTok _ _ _ => [] end) ls.
Lemma comment_leaves_app a b : comment_leaves (a ++ b) = comment_leaves a ++ comment_leaves b.
Proof. apply flat_map_app. Qed.
Lemma token_leaf ls k s e : In (k, s, e) (token_leaves ls) -> In (LTok k s e) ls.
Proof.
  intros H. apply in_flat_map in H as [[k' s' e'|s' e'] [Hi H]]; [|contradiction].
  destruct H as [H|[]]. injection H as -> -> ->. exact Hi.
Qed.
Lemma comment_leaf ls s e : In (s, e) (comment_leaves ls) -> In (LCom s e) ls.
Proof.
  intros H. apply in_flat_map in H as [[k' s' e'|s' e'] [Hi H]]; [contradiction|].
  destruct H as [H|[]]. injection H as -> ->. exact Hi.
Qed.
(** Leaves in order are known from their tokens and their comments. *)
Lemma chain_same l : forall l' n m, chain n l m -> chain n l' m ->
  token_leaves l = token_leaves l' -> comment_leaves l = comment_leaves l' -> l = l'.
Proof.
  induction l as [|x l IH]; intros [|y l'] n m C C' T K.
  - reflexivity.
  - destruct y; [discriminate T|discriminate K].
  - destruct x; [discriminate T|discriminate K].
  - destruct C as [C1 [C2 C]], C' as [C1' [C2' C']].
    destruct x as [k s e|s e], y as [k' s' e'|s' e']; cbn [leaf_start leaf_end] in *.
    + cbn in T, K. injection T as -> -> -> T. f_equal. eapply IH; eauto.
    + exfalso. cbn in T, K.
      assert (I1 : In (LTok k s e) l') by (apply token_leaf; unfold token_leaves; rewrite <- T; left; reflexivity).
      assert (I2 : In (LCom s' e') l) by (apply comment_leaf; unfold comment_leaves; rewrite K; left; reflexivity).
      apply (chain_in _ _ _ _ C) in I2. apply (chain_in _ _ _ _ C') in I1. cbn in *. lia.
    + exfalso. cbn in T, K.
      assert (I1 : In (LTok k' s' e') l) by (apply token_leaf; unfold token_leaves; rewrite T; left; reflexivity).
      assert (I2 : In (LCom s e) l') by (apply comment_leaf; unfold comment_leaves; rewrite <- K; left; reflexivity).
      apply (chain_in _ _ _ _ C) in I1. apply (chain_in _ _ _ _ C') in I2. cbn in *. lia.
    + cbn in T, K. injection K as -> -> K. f_equal. eapply IH; eauto.
Qed.
Lemma laid_chain ls : forall pos rest, laid pos ls rest = true -> chain pos ls (pos + blen rest).
Proof.
  induction ls as [|l ls IH]; intros pos rest H; cbn [laid chain] in *; [lia|].
  apply andb_prop in H as [H0 H]. apply andb_prop in H0 as [Ha Hb]. apply Nat.leb_le in Ha, Hb.
  destruct (split_at (leaf_start l - pos) rest) as [[g r1]|] eqn:E1; [|discriminate].
  apply andb_prop in H as [_ H].
  destruct (split_at (leaf_end l - leaf_start l) r1) as [[x r2]|] eqn:E2; [|discriminate].
  apply andb_prop in H as [Hl H]. apply split_at_iff in E1 as [E1 L1], E2 as [E2 L2]. subst rest r1.
  unfold leaf_ok in Hl. apply andb_prop in Hl as [Hn _]. apply negb_true_iff, Nat.eqb_neq in Hn.
  split; [exact Ha|]. split; [lia|]. specialize (IH _ _ H). rewrite !blen_app.
  replace (pos + (blen g + (blen x + blen r2))) with (leaf_end l + blen r2) by lia. exact IH.
Qed.
Lemma trivia_chain xs : forall pos, forallb piece_ok xs = true ->
  chain pos (trivia_leaves pos xs) (pos + blen (pieces_text xs)).
Proof.
  induction xs as [|[k x] xs IH]; intros pos P; [cbn; lia|].
  cbn [forallb] in P. apply andb_prop in P as [Px P]. cbn [trivia_leaves].
  unfold pieces_text. cbn [flat_map snd]. fold (pieces_text xs). rewrite blen_app, Nat.add_assoc.
  apply (chain_app _ _ (pos + blen x)); [|exact (IH _ P)].
  destruct k; cbn [chain leaf_start leaf_end]; try lia.
  split; [lia|]. split; [|lia]. destruct x as [|c x]; [discriminate Px|]. cbn [blen].
  pose proof (utf8_len_pos c). lia.
Qed.
Lemma trivia_tokens xs : forall pos, token_leaves (trivia_leaves pos xs) = [].
Proof.
  induction xs as [|[k x] xs IH]; intros pos; [reflexivity|]. cbn [trivia_leaves].
  rewrite token_leaves_app, IH. destruct k; reflexivity.
Qed.
Lemma trivia_comments tr xs : forall pos, comment_leaves (trivia_leaves pos xs) =
  map fst (placed_comments (ParseSpec.place tr pos xs)).
Proof.
  induction xs as [|[k x] xs IH]; intros pos; [reflexivity|]. cbn [trivia_leaves ParseSpec.place].
  rewrite comment_leaves_app, IH. unfold placed_comments at 2. cbn [flat_map pl_kind pl_pos pl_text].
  rewrite map_app. destruct k; reflexivity.
Qed.
Lemma parts_tokens ps : forall pos, token_leaves (parts_leaves pos ps) = own_ranges pos ps.
Proof.
  induction ps as [|p ps IH]; intros pos; [reflexivity|]. cbn [parts_leaves own_ranges].
  unfold part_leaves, own_leaf. rewrite !token_leaves_app, trivia_tokens, IH.
  match goal with |- context [token_leaves (?a :: ?b)] =>
    change (token_leaves (a :: b)) with ((p_kind p, own_start pos p, own_end pos p) :: token_leaves b) end.
  rewrite trivia_tokens. reflexivity.
Qed.
Lemma parts_comments ps : forall pos, comment_leaves (parts_leaves pos ps) =
  map fst (placed_comments (placed_trivia pos ps)).
Proof.
  induction ps as [|p ps IH]; intros pos; [reflexivity|]. cbn [parts_leaves placed_trivia].
  unfold part_leaves. rewrite !placed_comments_app, !map_app, <- IH, <- !trivia_comments.
  rewrite !comment_leaves_app, <- app_assoc. reflexivity.
Qed.
Lemma parts_chain ps : forall pos,
  Forall (fun p => forallb piece_ok (p_leading p) = true /\ forallb piece_ok (p_trailing p) = true) ps ->
  Forall (fun p => blen (p_own p) <> 0) ps ->
  chain pos (parts_leaves pos ps) (pos + blen (flat_map parts_text ps)).
Proof.
  induction ps as [|p ps IH]; intros pos P N; [cbn; lia|].
  inversion P as [|? ? [P1 P2] Pr]. inversion N as [|? ? N1 Nr]. subst.
  cbn [parts_leaves flat_map]. rewrite blen_app, Nat.add_assoc.
  eapply chain_app; [|exact (IH _ Pr Nr)]. unfold part_leaves, parts_text. rewrite !blen_app.
  eapply chain_app; [exact (trivia_chain _ _ P1)|].
  cbn [chain own_leaf leaf_start leaf_end]. unfold own_start.
  split; [lia|]. split; [unfold own_end, own_start; lia|].
  pose proof (trivia_chain _ (own_end pos p) P2) as T.
  match type of T with chain _ _ ?x => match goal with |- chain _ _ ?y =>
    replace y with x by (unfold own_end, own_start; lia) end end. exact T.
Qed.

(** The leaves and the comments from the first token to the last. *)
Fixpoint leaves_to_end (pos : nat) (xs : list parts) : list leaf :=
  match xs with
  | [] => []
  | [y] => trivia_leaves pos (p_leading y) ++ [own_leaf pos y]
  | y :: r => part_leaves pos y ++ leaves_to_end (pos + blen (parts_text y)) r
  end.
Definition own_leaves (pos : nat) (xs : list parts) : list leaf :=
  match xs with
  | [] => []
  | [x] => [own_leaf pos x]
  | x :: r => own_leaf pos x :: trivia_leaves (own_end pos x) (p_trailing x)
              ++ leaves_to_end (pos + blen (parts_text x)) r
  end.
Fixpoint comments_to_end (xs : list parts) : list text :=
  match xs with
  | [] => []
  | [y] => comments_in (p_leading y)
  | y :: r => token_comments y ++ comments_to_end r
  end.
Definition inside_comments (xs : list parts) : list text :=
  match xs with
  | [] | [_] => []
  | x :: r => comments_in (p_trailing x) ++ comments_to_end r
  end.
Lemma leaves_to_end_cons pos x y r : leaves_to_end pos (x :: y :: r) =
  part_leaves pos x ++ leaves_to_end (pos + blen (parts_text x)) (y :: r).
Proof. reflexivity. Qed.
Lemma leaves_own pos x r : leaves_to_end pos (x :: r) =
  trivia_leaves pos (p_leading x) ++ own_leaves pos (x :: r).
Proof.
  destruct r; [reflexivity|]. rewrite leaves_to_end_cons. cbn [own_leaves]. unfold part_leaves.
  rewrite <- app_assoc. reflexivity.
Qed.
Lemma leaves_end w : forall pos z,
  leaves_to_end pos (w ++ [z]) ++ trivia_leaves (own_end (pos + blen (flat_map parts_text w)) z) (p_trailing z)
  = parts_leaves pos (w ++ [z]).
Proof.
  induction w as [|x w IH]; intros pos z.
  - cbn [app leaves_to_end parts_leaves flat_map blen]. unfold part_leaves.
    rewrite Nat.add_0_r, app_nil_r, <- app_assoc. reflexivity.
  - cbn [app]. destruct (w ++ [z]) as [|y r] eqn:E; [destruct w; discriminate|].
    rewrite leaves_to_end_cons, <- app_assoc. cbn [parts_leaves flat_map]. f_equal.
    specialize (IH (pos + blen (parts_text x)) z). rewrite E in IH.
    rewrite blen_app, Nat.add_assoc. exact IH.
Qed.
Lemma leaves_to_end_tokens xs : forall pos, token_leaves (leaves_to_end pos xs) = own_ranges pos xs.
Proof.
  induction xs as [|x [|y r] IH]; intros pos; [reflexivity| |].
  - cbn [leaves_to_end]. rewrite token_leaves_app, trivia_tokens. reflexivity.
  - rewrite leaves_to_end_cons, token_leaves_app, IH. unfold part_leaves.
    rewrite token_leaves_app, trivia_tokens.
    change (token_leaves (own_leaf pos x :: trivia_leaves (own_end pos x) (p_trailing x)))
      with ((p_kind x, own_start pos x, own_end pos x) :: token_leaves (trivia_leaves (own_end pos x) (p_trailing x))).
    rewrite trivia_tokens. reflexivity.
Qed.
Lemma own_leaves_tokens xs pos : token_leaves (own_leaves pos xs) = own_ranges pos xs.
Proof.
  destruct xs as [|x r]; [reflexivity|]. rewrite <- leaves_to_end_tokens, leaves_own, token_leaves_app,
    trivia_tokens. reflexivity.
Qed.
Lemma comments_at_app src a b : comments_at src (a ++ b) = comments_at src a ++ comments_at src b.
Proof. apply flat_map_app. Qed.
Lemma comments_at_own src pos x l : comments_at src (own_leaf pos x :: l) = comments_at src l.
Proof. reflexivity. Qed.
Lemma trivia_comments_at src xs : forall pre post, src = pre ++ pieces_text xs ++ post ->
  comments_at src (trivia_leaves (blen pre) xs) = comments_in xs.
Proof.
  induction xs as [|[k x] xs IH]; intros pre post E; [reflexivity|].
  unfold pieces_text in E. cbn [flat_map snd] in E. fold (pieces_text xs) in E. rewrite <- app_assoc in E.
  cbn [trivia_leaves]. rewrite comments_at_app.
  specialize (IH (pre ++ x) post). rewrite blen_app, <- app_assoc in IH. rewrite (IH E).
  destruct k; try reflexivity. unfold comments_at, comments_in. cbn [flat_map].
  rewrite (slice_mid src pre x _ E). reflexivity.
Qed.
Lemma comments_to_end_at src xs : forall pre post, src = pre ++ trimmed_end xs ++ post ->
  comments_at src (leaves_to_end (blen pre) xs) = comments_to_end xs.
Proof.
  induction xs as [|x [|y r] IH]; intros pre post E; [reflexivity| |].
  - cbn [leaves_to_end comments_to_end trimmed_end] in *. rewrite comments_at_app, comments_at_own, app_nil_r.
    rewrite <- app_assoc in E. exact (trivia_comments_at _ _ _ _ E).
  - rewrite leaves_to_end_cons, comments_at_app. rewrite trimmed_end_cons in E.
    change (comments_to_end (x :: y :: r)) with (token_comments x ++ comments_to_end (y :: r)).
    unfold with_trivia in E. rewrite <- !app_assoc in E.
    assert (E0 : src = (pre ++ parts_text x) ++ trimmed_end (y :: r) ++ post).
    { rewrite E. unfold parts_text. rewrite <- !app_assoc. reflexivity. }
    specialize (IH _ _ E0). rewrite blen_app in IH. rewrite IH. f_equal.
    unfold part_leaves. rewrite comments_at_app, comments_at_own, (trivia_comments_at _ _ _ _ E).
    rewrite (app_assoc pre), (app_assoc (pre ++ _)) in E. apply trivia_comments_at in E.
    rewrite !blen_app in E. unfold own_end, own_start. rewrite E. reflexivity.
Qed.
Lemma inside_comments_at src xs pre post : src = pre ++ flat_map parts_text xs ++ post ->
  comments_at src (own_leaves (blen pre) xs) = inside_comments xs.
Proof.
  destruct xs as [|x [|y r]]; [reflexivity|reflexivity|]. intros E. cbn [own_leaves inside_comments].
  rewrite comments_at_own, comments_at_app.
  destruct (exists_last (l := y :: r) ltac:(discriminate)) as [w [z Ew]].
  pose proof (trimmed_end_text w z) as T. rewrite <- Ew in T. cbn [flat_map] in E, T. rewrite <- T in E.
  rewrite <- !app_assoc in E.
  assert (E0 : src = (pre ++ parts_text x) ++ trimmed_end (y :: r) ++ pieces_text (p_trailing z) ++ post)
    by (rewrite E, <- app_assoc; reflexivity).
  apply comments_to_end_at in E0. rewrite blen_app in E0. rewrite E0. f_equal.
  unfold parts_text in E. rewrite <- !app_assoc in E.
  rewrite (app_assoc pre), (app_assoc (pre ++ _)) in E. apply trivia_comments_at in E.
  rewrite !blen_app in E. exact E.
Qed.

(** The tokens of a file: [ps], then [z]. *)
(** * Line breaks *)

Lemma exists_last' {A} (a : list A) : a = [] \/ exists a' y, a = a' ++ [y].
Proof. destruct a as [|x r]; [auto|right]. destruct (exists_last (l := x :: r) ltac:(discriminate)) as [w [y E]]. eauto. Qed.

Lemma lf_in x : In LF x <-> no_lf x = false.
Proof.
  split.
  - intros H. destruct (no_lf x) eqn:E; [|reflexivity]. unfold no_lf in E.
    pose proof (proj1 (forallb_forall _ _) E LF H) as Q. discriminate.
  - intros H. pose proof (has_lf_no x) as E. rewrite H in E. cbn [negb] in E.
    apply existsb_exists in E as [c [Hc E]]. apply N.eqb_eq in E. subst c. exact Hc.
Qed.
Lemma newline_piece x : piece_ok (Newline, x) = true -> In LF x -> x = [LF] \/ x = [CR; LF].
Proof.
  intros H L. unfold piece_ok in H. cbn [fst snd] in H. rewrite !orb_true_iff, !text_eqb_eq in H.
  destruct H as [[->| ->]| ->]; auto. destruct L as [L|[]]. discriminate.
Qed.
Lemma white_piece x : piece_ok (Whitespace, x) = true -> no_lf x = true /\ forallb gap_char x = true.
Proof.
  intros H. unfold piece_ok in H. cbn [fst snd] in H. rewrite !andb_true_iff in H. tauto.
Qed.
Lemma newline_in xs : forallb piece_ok xs = true -> Forall (fun p => fst p = Newline -> In LF (snd p)) xs ->
  (existsb (fun p => tkind_eqb (fst p) Newline) xs = true <-> In LF (pieces_text xs)).
Proof.
  induction xs as [|[k x] r IH]; intros P F; [cbn; split; [discriminate|tauto]|].
  cbn [forallb] in P. apply andb_prop in P as [P1 P2].
  pose proof (Forall_inv F) as F1. apply Forall_inv_tail in F. specialize (IH P2 F).
  cbn [existsb fst]. rewrite pieces_text_cons, in_app_iff, orb_true_iff, IH.
  destruct k; cbn [tkind_eqb fst snd] in *.
  - apply white_piece in P1 as [P1 _]. rewrite (lf_in x), P1. intuition discriminate.
  - specialize (F1 eq_refl). tauto.
  - unfold piece_ok in P1. cbn [fst snd] in P1. apply andb_prop in P1 as [_ P1]. rewrite (lf_in x), P1. intuition discriminate.
Qed.
Lemma white_gap x y : no_lf x = true -> forallb gap_char x = true ->
  lf_count (up_to_comment (x ++ y)) = lf_count (up_to_comment y) /\
  from_line_end (x ++ y) = from_line_end y.
Proof.
  induction x as [|c x IH]; intros N G; [auto|].
  unfold no_lf in N. cbn [forallb app] in *. apply andb_prop in N as [N1 N], G as [G1 G].
  destruct (IH N G) as [A B]. apply negb_true_iff in N1.
  assert (H : (c =? 35)%N = false).
  { apply N.eqb_neq. intros ->. discriminate. }
  cbn [up_to_comment from_line_end]. rewrite H, N1. split; [|exact B].
  unfold lf_count in *. cbn [filter]. rewrite N1. exact A.
Qed.
Lemma lines_count xs : forallb piece_ok xs = true -> Forall (fun p => fst p = Newline -> In LF (snd p)) xs ->
  lines_to_comment xs = lf_count (up_to_comment (pieces_text xs)).
Proof.
  induction xs as [|[k x] r IH]; intros P F; [reflexivity|].
  cbn [forallb] in P. apply andb_prop in P as [P1 P2].
  pose proof (Forall_inv F) as F1. apply Forall_inv_tail in F. specialize (IH P2 F).
  rewrite pieces_text_cons. destruct k; cbn [lines_to_comment].
  - apply white_piece in P1 as [N G]. rewrite (proj1 (white_gap _ _ N G)). exact IH.
  - destruct (newline_piece x P1 (F1 eq_refl)) as [-> | ->];
      cbn [app up_to_comment N.eqb Pos.eqb CR LF]; unfold lf_count in *;
      cbn [filter N.eqb Pos.eqb CR LF List.length]; rewrite IH; reflexivity.
  - cbn in P1. destruct x as [|c x]; [discriminate|]. apply andb_prop in P1 as [P1 _].
    cbn [app up_to_comment]. rewrite P1. reflexivity.
Qed.
Lemma lines_count_after xs : forallb piece_ok xs = true -> Forall (fun p => fst p = Newline -> In LF (snd p)) xs ->
  comments_on_lines xs ->
  lines_to_comment xs = lf_count (up_to_comment (from_line_end (pieces_text xs))).
Proof.
  induction xs as [|[k x] r IH]; intros P F C; [reflexivity|].
  pose proof (lines_count _ P F) as L.
  cbn [forallb] in P. apply andb_prop in P as [P1 P2].
  pose proof (Forall_inv F) as F1. apply Forall_inv_tail in F. specialize (IH P2 F).
  rewrite pieces_text_cons in *. destruct k; cbn [lines_to_comment] in *.
  - apply white_piece in P1 as [N G]. rewrite (proj2 (white_gap _ _ N G)). apply IH.
    intros a y b E. specialize (C ((Whitespace, x) :: a) y b (f_equal _ E)).
    rewrite pieces_text_cons, in_app_iff, (lf_in x), N in C. destruct C as [C|C]; [discriminate|exact C].
  - rewrite L. destruct (newline_piece x P1 (F1 eq_refl)) as [-> | ->]; reflexivity.
  - destruct (C [] x r eq_refl).
Qed.

Section Tokens.
Variables (src : text) (t : ts) (ps : list parts) (z : parts).
Hypothesis Whole : flat_map parts_text (ps ++ [z]) = src.
Hypothesis Own : own_ranges 0 (ps ++ [z]) = token_leaves (leaves t) ++ [(EOF, blen src, blen src)].
Hypothesis Slices : Forall2 (fun p x => slice (snd (fst x)) (snd x) src = Some (p_own p))
  (ps ++ [z]) (own_ranges 0 (ps ++ [z])).
Hypothesis Pieces : Forall (fun p => forallb piece_ok (p_leading p) = true /\
  forallb piece_ok (p_trailing p) = true) (ps ++ [z]).
Hypothesis Quiet : Forall (fun p => no_lf (pieces_text (p_trailing p)) = true) (ps ++ [z]).
Hypothesis Laid : laid 0 (leaves t) src = true.
Hypothesis Comments : placed_comments (placed_trivia 0 (ps ++ [z])) = comment_places src None (leaves t).
Hypothesis Breaks : Forall (fun p => whole_breaks (p_leading p)) (ps ++ [z]).
Hypothesis Lines : Forall (fun p => comments_on_lines (p_leading p)) (tl (ps ++ [z])).

Lemma ranges_leaves : own_ranges 0 ps = token_leaves (leaves t).
Proof. rewrite own_ranges_app in Own. cbn [own_ranges] in Own. apply app_inj_tail in Own. apply Own. Qed.
Lemma end_of_file : own_start (blen (flat_map parts_text ps)) z = blen src /\ p_trailing z = [].
Proof.
  pose proof Own as E. rewrite own_ranges_app in E. cbn [own_ranges] in E.
  apply app_inj_tail in E as [_ E]. cbn [Nat.add] in E. injection E as _ E1 E2.
  split; [exact E1|]. apply Forall_app in Pieces as [_ P]. apply Forall_inv in P as [_ P2].
  apply pieces_none; [exact P2|]. rewrite <- Whole, flat_map_app, blen_app in E2. cbn [flat_map] in E2.
  rewrite app_nil_r in E2. unfold parts_text in E2 at 3. rewrite !blen_app in E2. lia.
Qed.
Lemma comment_places_leaves last ls : map fst (comment_places src last ls) = comment_leaves ls.
Proof.
  revert last. induction ls as [|[k s e|s e] ls IH]; intros last; [reflexivity|apply IH|].
  cbn [comment_places map fst]. rewrite IH. reflexivity.
Qed.
Lemma chain_tokens ls : forall n m, chain n ls m -> Forall (fun x => snd (fst x) < snd x) (token_leaves ls).
Proof.
  intros n m C. apply Forall_forall. intros [[k s] e] H. apply token_leaf in H.
  apply (chain_in _ _ _ _ C) in H. apply H.
Qed.
Lemma own_nonempty : Forall (fun p => blen (p_own p) <> 0) ps.
Proof.
  pose proof (chain_tokens _ _ _ (laid_chain _ _ _ Laid)) as N. rewrite <- ranges_leaves in N.
  revert N. clear. set (n := 0) at 1. clearbody n. revert n.
  induction ps as [|p r IH]; intros n N; [constructor|].
  cbn [own_ranges] in N. pose proof (Forall_inv N) as N1. apply Forall_inv_tail in N. cbn [fst snd] in N1.
  constructor; [lia|exact (IH _ N)].
Qed.

(** The leaves of tree-sitter's tree are the tokens with their comments. *)
Lemma leaves_parts : leaves t = parts_leaves 0 ps ++ trivia_leaves (blen (flat_map parts_text ps)) (p_leading z).
Proof.
  destruct end_of_file as [E1 E2]. apply Forall_app in Pieces as [P Pz]. apply Forall_inv in Pz as [P1 _].
  pose proof (laid_chain _ _ _ Laid) as C.
  eapply chain_same; [exact C| | |].
  - eapply chain_app; [exact (parts_chain _ _ P own_nonempty)|]. cbn [Nat.add].
    rewrite <- E1. exact (trivia_chain _ _ P1).
  - rewrite token_leaves_app, parts_tokens, trivia_tokens, app_nil_r. symmetry. exact ranges_leaves.
  - rewrite <- (comment_places_leaves None), <- Comments, comment_leaves_app, parts_comments,
      (trivia_comments false), <- map_app. f_equal.
    assert (A : forall a n b, placed_trivia n (a ++ b) = placed_trivia n a ++
      placed_trivia (n + blen (flat_map parts_text a)) b).
    { clear. induction a as [|x a IH]; intros n b; [cbn; rewrite Nat.add_0_r; reflexivity|].
      cbn [app placed_trivia flat_map]. rewrite IH, blen_app, Nat.add_assoc, <- !app_assoc. reflexivity. }
    rewrite A, placed_comments_app. cbn [placed_trivia Nat.add]. rewrite E2. cbn [ParseSpec.place].
    rewrite app_nil_r. reflexivity.
Qed.
Lemma slices_leaves : Forall2 (fun p x => slice (snd (fst x)) (snd x) src = Some (p_own p))
  ps (own_ranges 0 ps).
Proof.
  pose proof Slices as S. rewrite own_ranges_app in S. apply Forall2_app_inv_l in S as [u [v [U [V E]]]].
  assert (List.length u = List.length (own_ranges 0 ps)).
  { rewrite <- (Forall2_same _ _ _ U). clear. generalize 0. induction ps; intros n; cbn; auto. }
  apply app_same in E as [<- _]; [exact U|auto].
Qed.

(** Where a window of the tokens stands. *)
Lemma spotted a x r b : ps = a ++ (x :: r) ++ b ->
  let pos := blen (flat_map parts_text a) in
  exists f after,
    leaves t = (parts_leaves 0 a ++ trivia_leaves pos (p_leading x)) ++ own_leaves pos (x :: r) ++ after /\
    bounded (own_leaves pos (x :: r)) (own_start pos x) f /\
    tokens_at src (own_leaves pos (x :: r)) = map token_of (x :: r) /\
    comments_at src (own_leaves pos (x :: r)) = inside_comments (x :: r) /\
    slice (own_start pos x) f src = Some (trimmed (x :: r)).
Proof.
  intros E pos.
  pose proof slices_leaves as S. rewrite E, !own_ranges_app in S. cbn [Nat.add] in S. fold pos in S.
  apply Forall2_app_inv_l in S as [u [v [U [V E1]]]].
  assert (Lu : forall q n, List.length (own_ranges n q) = List.length q).
  { clear. induction q; intros n; cbn; auto. }
  apply app_same in E1 as [<- E1]; [|rewrite <- (Forall2_same _ _ _ U); auto]. subst v.
  apply Forall2_app_inv_l in V as [u' [v' [U' [V' E1]]]].
  apply app_same in E1 as [<- E1]; [|rewrite <- (Forall2_same _ _ _ U'); auto]. clear V' E1 v' U.
  destruct (exists_last (l := x :: r) ltac:(discriminate)) as [w' [y Ew]].
  set (f0 := own_end (pos + blen (flat_map parts_text w')) y).
  exists f0. eexists. split; [|split; [|split; [|split]]].
  - rewrite leaves_parts, E, !parts_leaves_app. cbn [Nat.add]. fold pos.
    rewrite Ew at 1. rewrite <- (leaves_end w' pos y), <- Ew, leaves_own, <- !app_assoc. reflexivity.
  - split.
    + exists (p_kind x), (own_end pos x). destruct r as [|y0 r]; eexists; reflexivity.
    + assert (G : forall w n, exists q, leaves_to_end n (w ++ [y]) =
        q ++ [own_leaf (n + blen (flat_map parts_text w)) y]).
      { clear. induction w as [|v w IH]; intros n.
        - exists (trivia_leaves n (p_leading y)). cbn [flat_map blen app]. rewrite Nat.add_0_r. reflexivity.
        - destruct (IH (n + blen (parts_text v))) as [q Q]. exists (part_leaves n v ++ q).
          cbn [app flat_map]. rewrite blen_app, Nat.add_assoc, <- app_assoc, <- Q.
          destruct (w ++ [y]) eqn:D; [destruct w; discriminate|reflexivity]. }
      destruct w' as [|v w'].
      * injection Ew as -> ->. exists [], (p_kind y), (own_start pos y). unfold f0, own_leaves, own_leaf.
        cbn [flat_map blen app]. rewrite Nat.add_0_r. reflexivity.
      * injection Ew as <- ->. destruct (G w' (pos + blen (parts_text x))) as [q Q].
        exists (own_leaf pos x :: trivia_leaves (own_end pos x) (p_trailing x) ++ q), (p_kind y).
        exists (own_start (pos + blen (flat_map parts_text (x :: w'))) y).
        destruct (w' ++ [y]) as [|y0 r0] eqn:D; [destruct w'; discriminate|].
        cbn [own_leaves]. rewrite Q. cbn [app]. rewrite <- app_assoc. unfold f0. cbn [flat_map].
        rewrite blen_app, Nat.add_assoc. reflexivity.
  - rewrite tokens_at_leaves, own_leaves_tokens. symmetry. apply own_ranges_tokens, U'.
  - assert (Es : src = flat_map parts_text a ++ flat_map parts_text (x :: r) ++ flat_map parts_text (b ++ [z])).
    { rewrite <- Whole, E, <- !app_assoc, !flat_map_app. reflexivity. }
    exact (inside_comments_at _ _ _ _ Es).
  - pose proof (trimmed_end_text w' y) as T. rewrite <- Ew, trimmed_trimmed_end in T.
    assert (Es : src = (flat_map parts_text a ++ pieces_text (p_leading x)) ++ trimmed (x :: r) ++
      (pieces_text (p_trailing y) ++ flat_map parts_text (b ++ [z]))).
    { rewrite <- Whole, E, <- !app_assoc, !flat_map_app, <- T, <- !app_assoc. reflexivity. }
    pose proof (slice_mid _ _ _ _ Es) as Q. rewrite blen_app in Q. fold pos in Q.
    replace f0 with (pos + blen (pieces_text (p_leading x)) + blen (trimmed (x :: r))); [exact Q|].
    unfold f0, own_end, own_start. rewrite Ew, flat_map_app in T. cbn [flat_map] in T. rewrite app_nil_r in T.
    unfold parts_text at 2 in T. apply (f_equal blen) in T. rewrite !blen_app, <- Ew in T. lia.
Qed.

Lemma tokens_before a b x : ps = a ++ b ->
  tokens_at src (parts_leaves 0 a ++ trivia_leaves (blen (flat_map parts_text a)) x) = map token_of a.
Proof.
  intros E. pose proof slices_leaves as S. rewrite E, !own_ranges_app in S. cbn [Nat.add] in S.
  apply Forall2_app_inv_l in S as [u [v [U [V E1]]]].
  assert (Lu : forall q n, List.length (own_ranges n q) = List.length q).
  { clear. induction q; intros n; cbn; auto. }
  apply app_same in E1 as [<- E1]; [|rewrite <- (Forall2_same _ _ _ U); auto].
  rewrite tokens_at_leaves, token_leaves_app, trivia_tokens, app_nil_r, parts_tokens. symmetry.
  apply own_ranges_tokens, U.
Qed.

(** The line breaks before a token. *)
Lemma gapped a x b : ps = a ++ x :: b ->
  let pos := blen (flat_map parts_text a) in
  let before := parts_leaves 0 a ++ trivia_leaves pos (p_leading x) in
  exists gap, slice (last_end before) (own_start pos x) src = Some gap /\
    (cr_paired gap -> (token_newline x = true <-> In LF gap) /\
                      token_lines x = breaks_in (no_token before) gap).
Proof.
  intros E pos before.
  assert (T : token_leaves before = own_ranges 0 a).
  { unfold before. rewrite token_leaves_app, parts_tokens, trivia_tokens, app_nil_r. reflexivity. }
  assert (Px : In x (ps ++ [z])) by (rewrite E, <- app_assoc; apply in_or_app; right; left; reflexivity).
  pose proof (proj1 (proj1 (Forall_forall _ _) Pieces x Px)) as OK.
  pose proof (proj1 (Forall_forall _ _) Breaks x Px) as WB.
  unfold last_end. rewrite last_end_leaves, no_token_leaves, T.
  destruct (exists_last' a) as [-> |[a' [y Ea]]].
  - cbn [own_ranges rev]. exists (pieces_text (p_leading x)). split.
    + unfold own_start, pos. cbn [flat_map blen Nat.add].
      apply (slice_mid src [] _ (p_own x ++ pieces_text (p_trailing x) ++ flat_map parts_text (b ++ [z]))).
      rewrite <- Whole, E. cbn [app flat_map]. unfold parts_text at 1. rewrite <- !app_assoc. reflexivity.
    + intros CP. specialize (WB CP). split; [exact (newline_in _ OK WB)|exact (lines_count _ OK WB)].
  - rewrite Ea, own_ranges_app, rev_app_distr. cbn [own_ranges rev app Nat.add].
    exists (pieces_text (p_trailing y) ++ pieces_text (p_leading x)).
    assert (Py : In y (ps ++ [z])).
    { rewrite E, Ea, <- !app_assoc. apply in_or_app. right. left. reflexivity. }
    pose proof (proj1 (Forall_forall _ _) Quiet y Py) as Qy. cbn beta in Qy.
    assert (CL : comments_on_lines (p_leading x)).
    { apply (proj1 (Forall_forall _ _) Lines x). rewrite E, Ea, <- !app_assoc.
      destruct a' as [|v a']; cbn [app tl]; [left; reflexivity|].
      apply in_or_app. right. right. left. reflexivity. }
    assert (NT : match own_ranges 0 a' ++ [(p_kind y, blen (flat_map parts_text a') + blen (pieces_text (p_leading y)),
       blen (flat_map parts_text a') + blen (pieces_text (p_leading y)) + blen (p_own y))] with [] => true | _ => false end = false).
    { destruct (own_ranges 0 a'); reflexivity. }
    rewrite NT. split.
    + assert (Es : src = (flat_map parts_text a' ++ pieces_text (p_leading y) ++ p_own y) ++
        (pieces_text (p_trailing y) ++ pieces_text (p_leading x)) ++
        (p_own x ++ pieces_text (p_trailing x) ++ flat_map parts_text (b ++ [z]))).
      { rewrite <- Whole, E, Ea, <- !app_assoc, flat_map_app. cbn [app flat_map].
        unfold parts_text at 2 3. rewrite <- !app_assoc. reflexivity. }
      pose proof (slice_mid _ _ _ _ Es) as S. etransitivity; [|exact S].
      unfold own_start, pos. rewrite Ea, flat_map_app. cbn [flat_map]. unfold parts_text at 3.
      rewrite !blen_app. cbn [blen]. f_equal; lia.
    + intros CP. specialize (WB (cr_right _ _ CP)). split.
      * rewrite in_app_iff, (lf_in (pieces_text (p_trailing y))), Qy.
        rewrite <- (newline_in _ OK WB). unfold token_newline. intuition discriminate.
      * unfold breaks_in, token_lines. rewrite (lines_count_after _ OK WB CL). f_equal. f_equal.
        revert Qy. generalize (pieces_text (p_trailing y)) as u. generalize (pieces_text (p_leading x)) as v.
        clear. intros v u. induction u as [|c u IH]; intros N; [reflexivity|].
        unfold no_lf in *. cbn [forallb app from_line_end] in *. apply andb_prop in N as [N1 N].
        apply negb_true_iff in N1. rewrite N1. exact (IH N).
Qed.
End Tokens.
