(** Which node the comments between two tokens are attached to. *)
From Coq Require Import List Arith Bool NArith Lia.
From Verif Require Import Text TextFacts SyntaxKind ParseModel ParseSpec FmtTree FmtSpec CommentsModel
  CommentsSpec CommentsProofs AstModel AstReads AstProofs FrontProofs SourceSpec SourceProofs
  SourceCommentProofs AroundProofs.
Import ListNotations.

(** * Trees that are read begin with tokens *)

Definition plain (t : syn) : Prop := match t with Node k _ => is_list k = false | Tok _ => True end.
Lemma spread_plain p t : plain t -> spread p t = [(p, t)].
Proof. destruct t as [k cs|x]; [apply spread_node|reflexivity]. Qed.
Lemma reads_plain pl p g t e : reads pl p g t e -> plain t.
Proof.
  intros R. destruct (reads_form pl _ _ _ _ R) as [k [cs [-> F]]]. exact (form_not_list k F).
Qed.
Lemma solid_node' k cs : Forall solid cs ->
  match cs with x :: _ => plain x /\ 1 <= width x | [] => True end -> solid (Node k cs).
Proof.
  intros F H. constructor; [exact F|]. intros _ p q c r E. destruct cs as [|x cs]; [discriminate E|].
  destruct H as [P W]. unfold kids in E. cbn [kids_from] in E. rewrite (spread_plain _ _ P) in E.
  injection E as <- <- _. exact W.
Qed.
Lemma solid_list k cs : is_list k = true -> Forall solid cs -> solid (Node k cs).
Proof. intros L F. constructor; [exact F|]. intros N. congruence. Qed.
Lemma leaf_solid cs : forall ts, leaf_tokens cs = Some ts -> Forall solid cs /\
  match cs with x :: _ => plain x /\ 1 <= width x | [] => True end.
Proof.
  induction cs as [|[k l|x] cs IH]; intros ts H; cbn in H; [auto|discriminate H|].
  destruct (leaf_tokens cs) as [l|] eqn:E; [|discriminate H]. destruct (IH l eq_refl) as [F _].
  split; [constructor; [constructor|exact F]|]. cbn. auto.
Qed.

Lemma reads_solid pl p g t e : reads pl p g t e ->
  solid t /\ (etokens e <> [] -> 1 <= width t) /\ (sort_of e <> SoArg -> etokens e <> []).
Proof.
  assert (L : forall p g t e, reads pl p g t e -> solid t /\ (sort_of e <> SoArg -> 1 <= width t)).
  { apply (reads_mind pl
      (fun p g t e => solid t /\ (sort_of e <> SoArg -> 1 <= width t))
      (fun s q i g l es => Forall solid l)
      (fun s q i g l es => Forall solid l)); intros;
    repeat match goal with H : _ /\ _ |- _ => destruct H end;
    try match goal with H : leaf_tokens _ = Some _ |- _ => destruct (leaf_solid _ _ H) end.
    all: try (constructor; fail).
    all: try (repeat (constructor; try assumption); fail).
    all: repeat match goal with H : sort_of ?e = _, W : sort_of ?e <> SoArg -> _ |- _ =>
           rewrite H in W; specialize (W ltac:(discriminate)) end.
    all: split; [|intros NA; try (exfalso; apply NA; reflexivity); try (unfold width in *; cbn [syn_tokens flat_map app List.length];
           rewrite ?app_length; cbn [List.length]; lia)].
    all: try (apply solid_node'; [repeat (constructor; try assumption)|];
      try (split; [first [exact Logic.I | eapply reads_plain; eassumption]|first [assumption | cbn; lia]]); fail).
    - apply solid_node'; assumption.
    - destruct cs as [|x cs]; [contradiction|]. unfold width in *. cbn [syn_tokens flat_map]. rewrite app_length. lia.
    - apply solid_node'; [|cbn; auto]. constructor; [constructor|]. constructor; [|constructor; [constructor|constructor]].
      subst lk. apply solid_list; [reflexivity|assumption].
    - apply solid_node'; [|cbn; auto]. constructor; [constructor|]. constructor; [|constructor; [constructor|constructor]].
      subst lk. apply solid_list; [reflexivity|assumption].
    - apply solid_node'; [|cbn; auto]. constructor; [constructor|]. constructor; [|constructor; [constructor|constructor]].
      subst lk. apply solid_list; [reflexivity|assumption].
    - apply solid_node'; [constructor|exact Logic.I]. }
  intros R. destruct (L _ _ _ _ R) as [S W]. split; [exact S|]. rewrite <- (reads_tokens _ _ _ _ _ R).
  unfold width in *. split.
  - destruct (syn_tokens t); cbn; [congruence|lia].
  - intros N. specialize (W N). destruct (syn_tokens t); cbn in *; [lia|discriminate].
Qed.

Lemma list_solid pl s q i g l es : reads_list pl s q i g l es -> Forall solid l /\ Forall plain l.
Proof.
  induction 1 as [|s q i g x e r es R So _ [IH IP]]; [auto|]. split; constructor; auto.
  - apply (reads_solid _ _ _ _ _ R).
  - exact (reads_plain _ _ _ _ _ R).
Qed.
Lemma front_solid rf t r : front_end rf t = Some r -> exists cs, t = Node R_ROOT cs /\ solid t.
Proof.
  intros H. destruct (front_end_reads _ _ _ H) as [cs [e [lk [l [b [q [g [-> [E [-> [Ke [B [_ R]]]]]]]]]]]]].
  exists cs. split; [reflexivity|]. destruct (list_solid _ _ _ _ _ _ _ R) as [Fl Pl].
  assert (F : Forall solid cs).
  { rewrite E. apply Forall_app. split.
    - destruct (r_bom r); [destruct B as [y [-> _]]|destruct B as [-> _]]; repeat constructor.
    - constructor; [apply solid_list; [reflexivity|exact Fl]|repeat constructor]. }
  constructor; [exact F|]. intros _ p q' c r' K. rewrite E in K.
  destruct (r_bom r) as [x|].
  - destruct B as [y [-> _]]. unfold kids in K. cbn in K. injection K as _ <- _. cbn. lia.
  - destruct B as [-> _]. unfold kids in K. cbn [app kids_from] in K.
    rewrite spread_list in K by reflexivity. inversion R as [? ? ? ? |? ? ? ? x e0 l' es R1 S1 _]; subst.
    + cbn in K. injection K as _ <- _. cbn. lia.
    + unfold kids in K. cbn [kids_from] in K. rewrite (spread_plain _ x) in K by (inversion Pl; assumption).
      cbn [app] in K. injection K as _ <- _. destruct (reads_solid _ _ _ _ _ R1) as [_ [W1 W2]].
      apply W1, W2. congruence.
Qed.

(** * Paths *)

Lemma app_split {X} (x : list X) : forall y d1 z d2, x ++ y = d1 ++ z :: d2 ->
  (exists d2', x = d1 ++ z :: d2' /\ d2 = d2' ++ y) \/ (exists d1', d1 = x ++ d1' /\ y = d1' ++ z :: d2).
Proof.
  induction x as [|a x IH]; intros y d1 z d2 E.
  - right. exists d1. auto.
  - destruct d1 as [|b d1]; cbn [app] in E; injection E as E1 E2.
    + left. exists x. subst. auto.
    + subst b. destruct (IH _ _ _ _ E2) as [[d [-> ->]]|[d [-> ->]]]; [left|right]; exists d; auto.
Qed.

Section Paths.
Variable root : syn.

Definition list_at (p : path) : bool :=
  match at_path root p with Some (Node k _) => is_list k | _ => false end.
(** The node around another one, lists passed over. *)
Fixpoint owner (p : path) : path :=
  match p with [] => [] | _ :: r => if list_at r then owner r else r end.
(** The number of tokens before a node. *)
Fixpoint off (p : path) : nat :=
  match p with
  | [] => 0
  | i :: r => off r + match at_path root r with
                      | Some (Node _ cs) => List.length (flat_map syn_tokens (firstn i cs))
                      | _ => 0
                      end
  end.

(** The items [l] of a list, from the [i]th on. *)
Definition lined (p : path) (i g : nat) (l : list syn) : Prop :=
  forall j x, nth_error l j = Some x ->
    at_path root (i + j :: p) = Some x /\
    off (i + j :: p) = g + List.length (flat_map syn_tokens (firstn j l)).
Lemma lined_node p k cs : at_path root p = Some (Node k cs) -> lined p 0 (off p) cs.
Proof. intros A j x N. cbn [Nat.add at_path off]. rewrite A. auto. Qed.
Lemma lined_head p i g x l : lined p i g (x :: l) -> at_path root (i :: p) = Some x /\ off (i :: p) = g.
Proof. intros H. destruct (H 0 x eq_refl) as [A B]. rewrite Nat.add_0_r in A, B.
  cbn [firstn flat_map List.length] in B. split; [exact A|lia].
Qed.
Lemma lined_tail p i g x l : lined p i g (x :: l) -> lined p (S i) (g + width x) l.
Proof.
  intros H j y N. destruct (H (S j) y N) as [A B]. rewrite <- Nat.add_succ_comm in A, B. split; [exact A|].
  rewrite B. cbn [firstn flat_map]. rewrite app_length. unfold width. lia.
Qed.

Definition spread_right (t : syn) : Prop := forall p, at_path root p = Some t ->
  forall d1 q c d2, spread p t = d1 ++ (q, c) :: d2 ->
  at_path root q = Some c /\ off q = off p + kwidth d1 /\ owner q = owner p.
Lemma kids_from_right p l : Forall spread_right l -> forall i g, lined p i g l ->
  forall d1 q c d2, kids_from p i l = d1 ++ (q, c) :: d2 ->
  at_path root q = Some c /\ off q = g + kwidth d1 /\ owner q = owner (0 :: p).
Proof.
  induction 1 as [|x l Hx _ IH]; intros i g L d1 q c d2 E; [destruct d1; discriminate E|].
  cbn [kids_from] in E. destruct (lined_head _ _ _ _ _ L) as [A O].
  apply app_split in E as [[d [E _]]|[d [-> E]]].
  - destruct (Hx _ A _ _ _ _ E) as [H1 [H2 H3]]. rewrite O in H2. auto.
  - destruct (IH _ _ (lined_tail _ _ _ _ _ L) _ _ _ _ E) as [H1 [H2 H3]].
    split; [exact H1|]. split; [|exact H3]. rewrite H2, kwidth_app.
    assert (K : kwidth (spread (i :: p) x) = width x) by (unfold kwidth, width; rewrite spread_tokens; reflexivity).
    rewrite K. lia.
Qed.
Lemma spread_holds t : spread_right t.
Proof.
  induction t as [k cs IH|x] using syn_ind'; intros p A d1 q c d2 E.
  - destruct (is_list k) eqn:L.
    + rewrite spread_list in E by exact L.
      destruct (kids_from_right p cs IH 0 (off p) (lined_node _ _ _ A) _ _ _ _ E) as [H1 [H2 H3]].
      split; [exact H1|]. split; [exact H2|]. rewrite H3. cbn [owner]. unfold list_at. rewrite A, L.
      reflexivity.
    + rewrite spread_node in E by exact L. destruct d1 as [|? [|]]; [|discriminate E|discriminate E].
      injection E as <- <- _. rewrite Nat.add_0_r. auto.
  - cbn [spread] in E. destruct d1 as [|? [|]]; [|discriminate E|discriminate E].
    injection E as <- <- _. rewrite Nat.add_0_r. auto.
Qed.
Lemma kids_right p k cs : at_path root p = Some (Node k cs) -> is_list k = false ->
  forall d1 q c d2, kids p cs = d1 ++ (q, c) :: d2 ->
  at_path root q = Some c /\ off q = off p + kwidth d1 /\ owner q = p /\ q <> [].
Proof.
  intros A L d1 q c d2 E.
  assert (F : Forall spread_right cs) by (apply Forall_forall; intros x _; apply spread_holds).
  destruct (kids_from_right p cs F 0 (off p) (lined_node _ _ _ A) _ _ _ _ E) as [H1 [H2 H3]].
  split; [exact H1|]. split; [exact H2|]. split.
  - rewrite H3. cbn [owner]. unfold list_at. rewrite A, L. reflexivity.
  - assert (G : forall i l, In (q, c) (kids_from p i l) -> q <> []).
    { clear - p q c. assert (S : forall t p, p <> [] -> forall q c, In (q, c) (spread p t) -> q <> []).
      { induction t as [k cs IH|x] using syn_ind'; intros p0 N q0 c0 I.
        - destruct (is_list k) eqn:L.
          + rewrite spread_list in I by exact L. unfold kids in I. revert I. generalize 0.
            induction IH as [|y r Hy _ IHr]; intros i I; [destruct I|]. cbn [kids_from] in I.
            apply in_app_or in I as [I|I]; [|exact (IHr _ I)].
            eapply Hy; [|exact I]. discriminate.
          + rewrite spread_node in I by exact L. destruct I as [I|[]]. congruence.
        - destruct I as [I|[]]. congruence. }
      intros i l. revert i. induction l as [|x l IH]; intros i I; [destruct I|]. cbn [kids_from] in I.
      apply in_app_or in I as [I|I]; [|exact (IH _ I)]. eapply S; [|exact I]. discriminate. }
    apply (G 0 cs). fold (kids p cs). rewrite E. apply in_or_app. right. left. reflexivity.
Qed.

Lemma reach_at p g t : reach root p g t -> at_path root p = Some t /\ off p = g.
Proof.
  induction 1 as [|p g k cs d1 q c d2 _ [A O] L K]; [auto|].
  destruct (kids_right p k cs A L _ _ _ _ K) as [H1 [H2 _]]. rewrite O in H2. auto.
Qed.
Lemma reach_root g t : reach root [] g t -> g = 0 /\ t = root.
Proof. intros R. destruct (reach_at _ _ _ R) as [A O]. cbn in A, O. split; congruence. Qed.

(** Nodes have their place among the children of another one. *)
Hypothesis plain_root : plain root.
Lemma kids_nth p cs i x : nth_error cs i = Some x ->
  exists a b, kids p cs = a ++ spread (i :: p) x ++ b /\ kwidth a = List.length (flat_map syn_tokens (firstn i cs)).
Proof.
  unfold kids.
  assert (G : forall j, nth_error cs i = Some x -> exists a b, kids_from p j cs = a ++ spread (j + i :: p) x ++ b /\
    kwidth a = List.length (flat_map syn_tokens (firstn i cs))).
  { revert i. induction cs as [|y r IH]; intros [|i] j N; try discriminate N; cbn [kids_from].
    - injection N as ->. exists [], (kids_from p (S j) r). rewrite Nat.add_0_r. auto.
    - destruct (IH i (S j) N) as [a [b [E W]]]. rewrite E. exists (spread (j :: p) y ++ a), b.
      rewrite <- Nat.add_succ_comm, <- app_assoc. split; [reflexivity|].
      rewrite kwidth_app, W. cbn [firstn flat_map]. rewrite app_length. f_equal.
      unfold kwidth. rewrite spread_tokens. reflexivity. }
  exact (G 0).
Qed.
Lemma spread_reach p : forall t, at_path root p = Some t ->
  p = [] \/ exists p0 g k cs a b, reach root p0 g (Node k cs) /\ is_list k = false /\
    kids p0 cs = a ++ spread p t ++ b /\ off p = g + kwidth a.
Proof.
  induction p as [|i r IH]; intros t A; [auto|right]. cbn [at_path] in A.
  destruct (at_path root r) as [[k cs|]|] eqn:Ar; try discriminate A.
  destruct (kids_nth r cs i t A) as [a [b [K W]]]. specialize (IH _ eq_refl).
  cbn [off]. rewrite Ar, <- W.
  destruct (is_list k) eqn:L.
  - destruct IH as [->|[p0 [g [k0 [cs0 [a0 [b0 [R [L0 [K0 O]]]]]]]]]].
    { cbn in Ar. injection Ar as Ar. rewrite Ar in plain_root. cbn in plain_root. congruence. }
    exists p0, g, k0, cs0, (a0 ++ a), (b ++ b0). split; [exact R|]. split; [exact L0|].
    rewrite K0, spread_list, K, <- !app_assoc by exact L. split; [reflexivity|]. rewrite kwidth_app. lia.
  - assert (R : reach root r (off r) (Node k cs)).
    { destruct IH as [->|[p0 [g [k0 [cs0 [a0 [b0 [R [L0 [K0 O]]]]]]]]]].
      - cbn in Ar. injection Ar as ->. constructor.
      - rewrite O. rewrite spread_node in K0 by exact L. exact (R_kid root _ _ _ _ _ _ _ _ R L0 K0). }
    exists r, (off r), k, cs, a, b. auto.
Qed.
Lemma at_reach p t : at_path root p = Some t -> plain t -> reach root p (off p) t.
Proof.
  intros A P. destruct (spread_reach p t A) as [->|[p0 [g [k0 [cs0 [a0 [b0 [R [L0 [K0 O]]]]]]]]]].
  - cbn in A. injection A as <-. constructor.
  - rewrite O. rewrite spread_plain in K0 by exact P. exact (R_kid root _ _ _ _ _ _ _ _ R L0 K0).
Qed.

(** * The innermost node around a gap *)

Inductive cut (G : nat) : path -> nat -> syn -> path -> list (path * syn) -> path * syn -> list (path * syn) -> Prop :=
| cut_here p g k cs d1 x d2 : kids p cs = d1 ++ x :: d2 -> G = g + kwidth d1 -> 1 <= width (snd x) ->
    cut G p g (Node k cs) p d1 x d2
| cut_below p g k cs l q c r p' d1 x d2 : kids p cs = l ++ (q, c) :: r ->
    g + kwidth l < G -> G < g + kwidth l + width c -> cut G q (g + kwidth l) c p' d1 x d2 ->
    cut G p g (Node k cs) p' d1 x d2.

Lemma same_split (a : list (path * syn)) : forall x b a' x' b', a ++ x :: b = a' ++ x' :: b' ->
  kwidth a < kwidth a' + width (snd x') -> kwidth a' < kwidth a + width (snd x) ->
  a = a' /\ x = x' /\ b = b'.
Proof.
  intros x b a' x' b' E W W'. destruct (two_splits _ _ _ _ _ _ E) as [[M [-> _]]|[[M [-> _]]|[-> ->]]].
  - exfalso. change (x :: M) with ([x] ++ M) in W'. rewrite !kwidth_app in W'. destruct x as [q c].
    rewrite kwidth_one in W'. cbn [snd] in W'. lia.
  - exfalso. change (x' :: M) with ([x'] ++ M) in W. rewrite !kwidth_app in W. destruct x' as [q c].
    rewrite kwidth_one in W. cbn [snd] in W. lia.
  - apply app_inv_head in E. injection E as E. auto.
Qed.
Lemma cut_same G p g t P d1 x d2 : cut G p g t P d1 x d2 -> forall P' d1' x' d2',
  cut G p g t P' d1' x' d2' -> P = P' /\ d1 = d1' /\ x = x' /\ d2 = d2'.
Proof.
  induction 1 as [p g k cs d1 x d2 K E W|p g k cs l q c r P d1 x d2 K L U C IH]; intros P' d1' x' d2' C'.
  - inversion C' as [? ? ? ? ? ? ? K' E' W'|? ? ? ? l' q' c' r' ? ? ? ? K' L' U' C'']; subst.
    + split; [reflexivity|]. rewrite K in K'. apply same_split in K'; [auto|lia|lia].
    + exfalso. rewrite K in K'. apply same_split in K' as [-> _]; cbn [snd]; lia.
  - inversion C' as [? ? ? ? ? ? ? K' E' W'|? ? ? ? l' q' c' r' ? ? ? ? K' L' U' C'']; subst.
    + exfalso. rewrite K in K'. apply same_split in K' as [-> _]; cbn [snd] in *; lia.
    + rewrite K in K'. apply same_split in K' as [-> [Ex ->]]; cbn [snd]; [|lia|lia].
      injection Ex as -> ->. apply IH. exact C''.
Qed.
Lemma cut_lift G p g t P d1 x d2 : reach root p g t -> cut G p g t P d1 x d2 -> g < G -> G < g + width t ->
  cut G [] 0 root P d1 x d2.
Proof.
  intros R. revert P d1 x d2. induction R as [|p g k cs e1 q c e2 R IH L K]; intros P d1 x d2 C H1 H2; [exact C|].
  apply IH; [|lia|].
  - exact (cut_below G p g k cs e1 q c e2 P d1 x d2 K H1 H2 C).
  - pose proof (kids_width p k cs) as Wd. rewrite K, kwidth_app, kwidth_cons in Wd. lia.
Qed.

(** A gap among the children of a node. *)
Definition opening (G : nat) (p : path) (d1 : list (path * syn)) (x : path * syn) (d2 : list (path * syn)) : Prop :=
  exists g k cs, reach root p g (Node k cs) /\ is_list k = false /\ kids p cs = d1 ++ x :: d2 /\
    1 <= width (snd x) /\ (1 <= kwidth d1 \/ p = []) /\ G = g + kwidth d1.
Lemma opening_cut G p d1 x d2 : opening G p d1 x d2 -> cut G [] 0 root p d1 x d2.
Proof.
  intros (g & k & cs & R & L & K & W & O & E). destruct O as [O | ->].
  - apply (cut_lift G p g (Node k cs)); [exact R| |lia|].
    + apply cut_here; assumption.
    + pose proof (kids_width p k cs) as Wd. rewrite K, kwidth_app in Wd. destruct x as [q c].
      rewrite kwidth_cons in Wd. cbn [snd] in W. lia.
  - apply reach_root in R as [-> <-]. apply cut_here; assumption.
Qed.
Lemma opening_same G p d1 x d2 p' d1' x' d2' : opening G p d1 x d2 -> opening G p' d1' x' d2' ->
  p = p' /\ d1 = d1' /\ x = x' /\ d2 = d2'.
Proof. intros A B. exact (cut_same _ _ _ _ _ _ _ _ (opening_cut _ _ _ _ _ A) _ _ _ _ (opening_cut _ _ _ _ _ B)). Qed.

Lemma around_opening d : around root d -> exists d1 x d2, opening (d_gap d) (d_enclosing d) d1 x d2 /\
  d_preceding d = lastnode d1 /\
  (d1 = [] /\ d_enclosing d = [] /\ is_node (snd x) = false \/
   d_following d = if is_node (snd x) then Some (fst x) else firstnode d2).
Proof.
  intros (p & g & k & cs & d1 & q & c & d2 & R & L & K & W & O & Ep & Eg & Pr & Fo).
  exists d1, (q, c), d2. split; [|split; [exact Pr|]].
  - exists g, k, cs. rewrite Ep. split; [exact R|]. split; [exact L|]. split; [exact K|]. split; [exact W|].
    split; [|exact Eg]. destruct O as [O|[_ O]]; auto.
  - cbn [fst snd]. destruct Fo as [[-> N]|F]; [|auto]. left. split; [reflexivity|]. split; [|exact N].
    destruct O as [O|[_ O]]; [cbn in O; lia|congruence].
Qed.
End Paths.

(** * The children of a node and the comments next to them *)

Lemma firstnode_in ks q : firstnode ks = Some q ->
  exists a c b, ks = a ++ (q, c) :: b /\ is_node c = true /\ firstnode a = None.
Proof.
  induction ks as [|[q' c] r IH]; intros E; [discriminate E|]. cbn in E.
  destruct (is_node c) eqn:N.
  - injection E as <-. exists [], c, r. auto.
  - destruct (IH E) as (a & c' & b & -> & N' & F). exists ((q', c) :: a), c', b. cbn. rewrite N. auto.
Qed.
Lemma lastnode_in ks q : lastnode ks = Some q ->
  exists a c b, ks = a ++ (q, c) :: b /\ is_node c = true /\ firstnode b = None.
Proof.
  induction ks as [|[q' c] r IH]; intros E; [discriminate E|]. cbn in E.
  destruct (lastnode r) as [q1|] eqn:L.
  - injection E as ->. destruct (IH eq_refl) as (a & c' & b & -> & N' & F). exists ((q', c) :: a), c', b. auto.
  - destruct (is_node c) eqn:N; [|discriminate E]. injection E as <-. exists [], c, r. split; [reflexivity|].
    split; [exact N|]. clear - L. induction r as [|[q c] r IH]; [reflexivity|]. cbn in *.
    destruct (lastnode r); [discriminate L|]. destruct (is_node c); [discriminate L|auto].
Qed.

Section Item.
Variable root : syn.
Hypothesis plain_root : plain root.
Variable pl : list placement.
Hypothesis all_settled : Forall (settled root) pl.
(** Comments in front of a byte order mark or in a file without expressions:
    not looked at. *)
Hypothesis first_kid_node : forall s k cs, In s pl -> d_gap (pt_comment s) = 0 -> root = Node k cs ->
  exists x r, kids [] cs = x :: r /\ is_node (snd x) = true.

Variables (p : path) (g : nat) (k : kind) (cs : list syn) (d1 : list (path * syn)) (q : path) (c : syn)
  (d2 : list (path * syn)).
Hypothesis Here : reach root p g (Node k cs).
Hypothesis Plain : is_list k = false.
Hypothesis Kids : kids p cs = d1 ++ (q, c) :: d2.
Hypothesis Is_node : is_node c = true.
Hypothesis Wide : 1 <= width c.

Lemma item_owner : owner root q = p.
Proof. apply (kids_right root p k cs (proj1 (reach_at root _ _ _ Here)) Plain _ _ _ _ Kids). Qed.
Lemma item_off : off root q = g + kwidth d1.
Proof.
  destruct (reach_at root _ _ _ Here) as [A O].
  destruct (kids_right root p k cs A Plain _ _ _ _ Kids) as [_ [H _]]. congruence.
Qed.
(** The item found again. *)
Lemma item_again p' g' k' cs' e1 c' e2 : reach root p' g' (Node k' cs') -> is_list k' = false ->
  kids p' cs' = e1 ++ (q, c') :: e2 ->
  p' = p /\ g' = g /\ k' = k /\ cs' = cs /\ e1 = d1 /\ c' = c /\ e2 = d2.
Proof.
  intros R L K. destruct (reach_at root _ _ _ R) as [A O]. destruct (reach_at root _ _ _ Here) as [A0 O0].
  destruct (kids_right root p' k' cs' A L _ _ _ _ K) as [A1 [O1 [W1 _]]].
  destruct (kids_right root p k cs A0 Plain _ _ _ _ Kids) as [A2 [O2 [W2 _]]].
  assert (p' = p) as -> by congruence. rewrite A in A0. injection A0 as -> ->.
  assert (c' = c) as -> by congruence. rewrite Kids in K. apply same_split in K; cbn [snd]; [|lia|lia].
  destruct K as [-> [_ ->]]. repeat split; congruence.
Qed.

Definition tight_before : Prop := forall a x b, d1 = a ++ x :: b -> is_node (snd x) = false ->
  firstnode b = None -> a = [].
Definition tight_after : Prop := d2 <> [] /\ forall a x b, d2 = a ++ x :: b -> firstnode a = None -> a = [].

Lemma following_gap s : tight_before -> In s pl -> d_following (pt_comment s) = Some q ->
  d_gap (pt_comment s) = g + kwidth d1.
Proof.
  intros T I F. pose proof (proj1 (Forall_forall _ _) all_settled s I) as [Ar _].
  destruct (around_opening root _ Ar) as (e1 & [xq xc] & e2 & O & _ & Fo).
  destruct O as (g' & k' & cs' & R & L & K & W & N & E). cbn [fst snd] in *.
  assert (NF : e1 = [] -> is_node xc = false -> False).
  { intros -> Nx. destruct N as [N|N]; [cbn in N; lia|]. rewrite N in *. apply reach_root in R as [-> Er].
    cbn in E. destruct (first_kid_node s _ _ I E (eq_sym Er)) as (x & r & K' & H).
    rewrite K in K'. cbn [app] in K'. injection K' as <- <-. cbn [snd] in H. congruence. }
  destruct Fo as [[-> [_ Nx]]|Fo]; [destruct (NF eq_refl Nx)|]. rewrite F in Fo.
  destruct (is_node xc) eqn:Nx.
  - injection Fo as <-. destruct (item_again _ _ _ _ _ _ _ R L K) as (_ & -> & _ & _ & -> & _). exact E.
  - symmetry in Fo. destruct (firstnode_in _ _ Fo) as (a & c' & b & -> & _ & Fa).
    assert (K2 : kids (d_enclosing (pt_comment s)) cs' = (e1 ++ (xq, xc) :: a) ++ (q, c') :: b)
      by (rewrite K, <- app_assoc; reflexivity).
    destruct (item_again _ _ _ _ _ _ _ R L K2) as (_ & _ & _ & _ & Ed & _).
    destruct (NF (T e1 (xq, xc) a (eq_sym Ed) Nx Fa) eq_refl).
Qed.
Lemma preceding_gap s : tight_after -> In s pl -> d_preceding (pt_comment s) = Some q ->
  d_gap (pt_comment s) = g + kwidth d1 + width c.
Proof.
  intros [_ T] I F. pose proof (proj1 (Forall_forall _ _) all_settled s I) as [Ar _].
  destruct (around_opening root _ Ar) as (e1 & x & e2 & O & Pr & _).
  destruct O as (g' & k' & cs' & R & L & K & W & N & E).
  rewrite F in Pr. symmetry in Pr. destruct (lastnode_in _ _ Pr) as (a & c' & b & -> & _ & Fb).
  assert (K2 : kids (d_enclosing (pt_comment s)) cs' = a ++ (q, c') :: (b ++ x :: e2))
    by (rewrite K, <- app_assoc; reflexivity).
  destruct (item_again _ _ _ _ _ _ _ R L K2) as (_ & -> & _ & _ & -> & -> & Ed).
  rewrite E, (T b x e2 (eq_sym Ed) Fb), kwidth_app, kwidth_one. lia.
Qed.

Lemma gap_before s : tight_before -> 1 <= kwidth d1 \/ p = [] -> In s pl ->
  d_gap (pt_comment s) = g + kwidth d1 ->
  d_enclosing (pt_comment s) = p /\ d_preceding (pt_comment s) = lastnode d1 /\
  d_following (pt_comment s) = Some q.
Proof.
  intros T N I E. pose proof (proj1 (Forall_forall _ _) all_settled s I) as [Ar _].
  destruct (around_opening root _ Ar) as (e1 & x & e2 & O & Pr & Fo).
  assert (O' : opening root (d_gap (pt_comment s)) p d1 (q, c) d2) by (exists g, k, cs; auto 10).
  destruct (opening_same root plain_root _ _ _ _ _ _ _ _ _ O O') as (Ep & -> & -> & ->).
  split; [exact Ep|]. split; [exact Pr|]. cbn [fst snd] in Fo. rewrite Is_node in Fo.
  destruct Fo as [[_ [_ Fo]]|Fo]; [discriminate Fo|exact Fo].
Qed.
Lemma gap_after s y d3 : d2 = y :: d3 -> 1 <= width (snd y) -> In s pl ->
  d_gap (pt_comment s) = g + kwidth d1 + width c ->
  d_enclosing (pt_comment s) = p /\ d_preceding (pt_comment s) = Some q /\
  d_following (pt_comment s) = if is_node (snd y) then Some (fst y) else firstnode d3.
Proof.
  intros Ed Wy I E. pose proof (proj1 (Forall_forall _ _) all_settled s I) as [Ar _].
  destruct (around_opening root _ Ar) as (e1 & x & e2 & O & Pr & Fo).
  assert (O' : opening root (d_gap (pt_comment s)) p (d1 ++ [(q, c)]) y d3).
  { exists g, k, cs. rewrite kwidth_app, kwidth_one, Kids, Ed, <- app_assoc. repeat split; auto; lia. }
  destruct (opening_same root plain_root _ _ _ _ _ _ _ _ _ O O') as (Ep & -> & -> & ->).
  split; [exact Ep|]. split.
  - rewrite Pr, lastnode_app. cbn. rewrite Is_node. reflexivity.
  - destruct Fo as [[Fo _]|Fo]; [destruct d1; discriminate Fo|exact Fo].
Qed.
(** A comment inside the item. *)
Lemma gap_inside s : In s pl -> d_enclosing (pt_comment s) = q -> q <> [] ->
  g + kwidth d1 < d_gap (pt_comment s) < g + kwidth d1 + width c.
Proof.
  intros I E N. pose proof (proj1 (Forall_forall _ _) all_settled s I) as [Ar _].
  destruct (around_opening root _ Ar) as (e1 & x & e2 & O & _).
  destruct O as (g' & k' & cs' & R & L & K & W & O & Eg). rewrite E in *.
  destruct O as [O|O]; [|contradiction].
  pose proof (R_kid root p g k cs d1 q c d2 Here Plain Kids) as R'.
  destruct (reach_at root _ _ _ R) as [A1 O1], (reach_at root _ _ _ R') as [A2 O2].
  assert (Ec : c = Node k' cs') by congruence. assert (g' = g + kwidth d1) as -> by congruence.
  pose proof (kids_width q k' cs') as Wd. rewrite <- Ec, K, kwidth_app in Wd. destruct x as [xq xc].
  rewrite kwidth_cons in Wd. cbn [snd] in W. lia.
Qed.
End Item.

(** * Placement rules *)

Section Rules.
Variable root : syn.

Lemma expression_field_is i e b : expression_field root i e = Some b -> b = i :: e.
Proof.
  unfold expression_field. destruct (node_kind root (i :: e)) as [k|]; [|discriminate].
  destruct (is_expression k); [|discriminate]. congruence.
Qed.
Lemma field_of_kind_is k i e b : field_of_kind root k i e = Some b -> b = i :: e.
Proof. unfold field_of_kind. destruct (is_kind root k (i :: e)); congruence. Qed.
Lemma kind_not_list k e : is_kind root k e = true -> is_list k = false -> list_at root e = false.
Proof.
  unfold is_kind, node_kind, list_at. destruct (at_path root e) as [[k' cs|]|]; [|discriminate|discriminate].
  intros K L. apply kind_eqb_eq in K. congruence.
Qed.

(** The places that the rules choose. *)
Inductive place : decorated -> how -> path -> Prop :=
| place_around d : place d Leading (d_enclosing d)
| place_child d h j y : list_at root y = false -> is_kind root R_PARENTHESIZED_EXPRESSION y = false ->
    is_kind root R_BRACED_EXPRESSIONS y = false -> h <> Dangling -> place d h (j :: y)
| place_first d b : is_kind root R_BRACED_EXPRESSIONS b = true -> place d Leading (0 :: 1 :: b)
| place_none d b : is_kind root R_BRACED_EXPRESSIONS b = true -> place d Dangling b
| place_paren_lead d : is_kind root R_PARENTHESIZED_EXPRESSION (d_enclosing d) = true ->
    d_following d = Some (1 :: d_enclosing d) -> place d Leading (1 :: d_enclosing d)
| place_paren_trail d : is_kind root R_PARENTHESIZED_EXPRESSION (d_enclosing d) = true ->
    d_preceding d = Some (1 :: d_enclosing d) -> place d Trailing (1 :: d_enclosing d)
| place_argument d h q : is_kind root R_ARGUMENT q = true -> h <> Dangling -> place d h q.

Lemma other_kind k k' e : is_kind root k e = true -> kind_eqb k k' = false -> is_kind root k' e = false.
Proof.
  unfold is_kind. destruct (node_kind root e) as [x|]; [|discriminate]. intros K N.
  apply kind_eqb_eq in K. congruence.
Qed.
Lemma body_place d i e b x : expression_field root i e = Some b -> list_at root e = false ->
  is_kind root R_PARENTHESIZED_EXPRESSION e = false -> is_kind root R_BRACED_EXPRESSIONS e = false ->
  place_body root b = x -> place d (fst x) (snd x).
Proof.
  intros B L N1 N2 <-. apply expression_field_is in B as ->. unfold place_body.
  destruct (is_kind root R_BRACED_EXPRESSIONS (i :: e)) eqn:K; [|apply place_child; auto; discriminate].
  destruct (first_expression root (i :: e)) as [f|] eqn:F; cbn [fst snd]; [|apply place_none, K].
  unfold first_expression in F. destruct (is_kind root R_EXPRESSION_LIST (1 :: i :: e)); [|discriminate F].
  apply expression_field_is in F as ->. apply place_first, K.
Qed.
Lemma is_path_is b q : is_path b q = true -> q = Some b.
Proof. destruct q as [q|]; [|discriminate]. cbn. intros H. apply path_eqb_eq in H. congruence. Qed.
Lemma alternative_place d i e b x : expression_field root i e = Some b -> list_at root e = false ->
  is_kind root R_PARENTHESIZED_EXPRESSION e = false -> is_kind root R_BRACED_EXPRESSIONS e = false ->
  place_alternative root b = Some x -> place d (fst x) (snd x).
Proof.
  intros B L N1 N2. unfold place_alternative. destruct (is_kind root R_IF_STATEMENT b) eqn:K.
  - destruct (expression_field root 4 b) as [t|] eqn:T; [|discriminate]. intros H. injection H as H.
    eapply (body_place d 4 b t x); eauto.
    + exact (kind_not_list _ _ K eq_refl).
    + exact (other_kind _ R_PARENTHESIZED_EXPRESSION _ K eq_refl).
    + exact (other_kind _ R_BRACED_EXPRESSIONS _ K eq_refl).
  - intros H. injection H as H. eapply body_place; eauto.
Qed.

Ltac kinds K :=
  pose proof (kind_not_list _ _ K eq_refl);
  try pose proof (other_kind _ R_PARENTHESIZED_EXPRESSION _ K eq_refl);
  try pose proof (other_kind _ R_BRACED_EXPRESSIONS _ K eq_refl).
Lemma or_else_some (a b : choice) x : or_else a b = Some x -> a = Some x \/ b = Some x.
Proof. destruct a; cbn; auto. Qed.
Theorem place_chosen d h q : place_comment root d = Some (h, q) -> place d h q.
Proof.
  assert (G : forall x, place_comment root d = Some x -> place d (fst x) (snd x)); [|intros H; exact (G _ H)].
  intros x H. unfold place_comment in H.
  repeat (apply or_else_some in H as [H|H]).
  - unfold handle_for in H. cbv zeta in H. destruct (is_kind root R_FOR_STATEMENT (d_enclosing d)) eqn:K; [|discriminate H].
    kinds K. destruct (expression_field root 6 (d_enclosing d)) as [b|] eqn:B.
    + destruct (_ && _); injection H as H; [eapply body_place; eauto|subst x; apply place_around].
    + injection H as <-. apply place_around.
  - unfold handle_function in H. cbv zeta in H. destruct (is_kind root R_FUNCTION_DEFINITION (d_enclosing d)) eqn:K; [|discriminate H].
    kinds K. destruct (match field_of_kind root R_PARAMETERS 1 (d_enclosing d) with Some ps => _ | None => false end).
    + injection H as <-. apply place_around.
    + destruct (expression_field root 2 (d_enclosing d)) as [b|] eqn:B; [|discriminate H].
      destruct (is_path b (d_following d)); [|discriminate H]. injection H as H. eapply body_place; eauto.
  - unfold handle_while in H. cbv zeta in H. destruct (is_kind root R_WHILE_STATEMENT (d_enclosing d)) eqn:K; [|discriminate H].
    kinds K. destruct (expression_field root 4 (d_enclosing d)) as [b|] eqn:B.
    + destruct (_ && _); injection H as H; [eapply body_place; eauto|subst x; apply place_around].
    + injection H as <-. apply place_around.
  - unfold handle_repeat in H. cbv zeta in H. destruct (is_kind root R_REPEAT_STATEMENT (d_enclosing d)) eqn:K; [|discriminate H].
    kinds K. destruct (expression_field root 1 (d_enclosing d)) as [b|] eqn:B.
    + injection H as H. eapply body_place; eauto.
    + injection H as <-. apply place_around.
  - unfold handle_if in H. cbv zeta in H. destruct (is_kind root R_IF_STATEMENT (d_enclosing d)) eqn:K; [|discriminate H].
    kinds K. destruct (expression_field root 2 (d_enclosing d)) as [b|] eqn:B; [|discriminate H].
    destruct (expression_field root 4 (d_enclosing d)) as [t|] eqn:T; [|discriminate H].
    destruct (_ && _).
    { injection H as <-. cbn [fst snd]. apply expression_field_is in B as ->. apply place_child; auto; discriminate. }
    destruct (is_path t (d_following d)); [injection H as H; eapply body_place; eauto|].
    destruct (field_of_kind root R_ELSE_CLAUSE 5 (d_enclosing d)) as [el|] eqn:El; [|discriminate H].
    assert (Ke : is_kind root R_ELSE_CLAUSE el = true).
    { unfold field_of_kind in El. destruct (is_kind root R_ELSE_CLAUSE (5 :: d_enclosing d)) eqn:Ke; [|discriminate El].
      injection El as <-. exact Ke. }
    destruct (expression_field root 1 el) as [a|] eqn:A; [|discriminate H].
    destruct (is_path el (d_following d)); [|discriminate H].
    destruct (d_own d); [|injection H as H; exact (body_place d 4 _ t x T ltac:(assumption) ltac:(assumption) ltac:(assumption) H)].
    eapply alternative_place; [exact A| | | |exact H].
    + exact (kind_not_list _ _ Ke eq_refl).
    + exact (other_kind _ R_PARENTHESIZED_EXPRESSION _ Ke eq_refl).
    + exact (other_kind _ R_BRACED_EXPRESSIONS _ Ke eq_refl).
  - unfold handle_else in H. cbv zeta in H. destruct (is_kind root R_ELSE_CLAUSE (d_enclosing d)) eqn:K; [|discriminate H].
    kinds K. destruct (expression_field root 1 (d_enclosing d)) as [b|] eqn:B; [|discriminate H].
    destruct (is_path b (d_following d)); [|discriminate H]. eapply alternative_place; eauto.
  - unfold handle_paren in H. cbv zeta in H. destruct (is_kind root R_PARENTHESIZED_EXPRESSION (d_enclosing d)) eqn:K; [|discriminate H].
    destruct (expression_field root 1 (d_enclosing d)) as [b|] eqn:B; [|discriminate H].
    apply expression_field_is in B as ->.
    destruct (is_path _ (d_following d)) eqn:P1.
    { injection H as <-. apply is_path_is in P1. apply place_paren_lead; assumption. }
    destruct (is_path _ (d_preceding d)) eqn:P2; [|discriminate H].
    injection H as <-. apply is_path_is in P2. apply place_paren_trail; assumption.
  - unfold handle_name_clause in H. cbv zeta in H. destruct (is_kind root R_ARGUMENT_NAME_CLAUSE (d_enclosing d)) eqn:K; [|discriminate H].
    kinds K. destruct (node_kind root (0 :: d_enclosing d)); [|discriminate H].
    destruct (_ && _); [|discriminate H]. injection H as <-. apply place_child; auto; discriminate.
  - unfold handle_argument in H. cbv zeta in H. destruct (is_kind root R_ARGUMENT (d_enclosing d)) eqn:K; [|discriminate H].
    kinds K. destruct (field_of_kind root R_ARGUMENT_NAME_CLAUSE 0 (d_enclosing d)) as [b|] eqn:B; [|discriminate H].
    apply field_of_kind_is in B as ->.
    destruct (is_path _ _); [|discriminate H]. injection H as <-. apply place_child; auto; discriminate.
  - assert (W : forall o q, whole_argument root o = Some q -> is_kind root R_ARGUMENT q = true).
    { intros [o|] q0; [|discriminate]. unfold whole_argument, argument_node.
      destruct (is_kind root R_ARGUMENT o) eqn:A; [|discriminate]. destruct (negb _); [|discriminate]. cbn. congruence. }
    unfold handle_hole in H. destruct (d_preceding d) as [b|]; [|discriminate H].
    unfold argument_node in H. destruct (is_kind root R_ARGUMENT b) eqn:A; [|discriminate H].
    destruct (is_hole_at root b); [|discriminate H]. cbn [andb] in H.
    destruct (closes_hole (d_next d)).
    + destruct (whole_argument root (prev_sibling root b)) as [y|] eqn:Wy; injection H as <-;
        apply place_argument; try discriminate; [exact (W _ _ Wy)|exact A].
    + destruct (whole_argument root (d_following d)) as [y|] eqn:Wy; injection H as <-;
        apply place_argument; try discriminate; [exact (W _ _ Wy)|exact A].
Qed.

(** Among the expressions of a file or of a pair of braces no rule applies. *)
Definition sits_in_list (k : kind) : bool := match k with R_ROOT | R_BRACED_EXPRESSIONS => true | _ => false end.
Lemma default_in_list d k : is_kind root k (d_enclosing d) = true -> sits_in_list k = true ->
  (forall b, d_preceding d = Some b -> is_kind root R_ARGUMENT b = false) ->
  place_comment root d = None.
Proof.
  intros K S P.
  assert (N : forall k', sits_in_list k' = false -> is_kind root k' (d_enclosing d) = false).
  { intros k' H. apply (other_kind k); [exact K|]. destruct (kind_eqb k k') eqn:E; [|reflexivity].
    apply kind_eqb_eq in E. congruence. }
  unfold place_comment, handle_for, handle_function, handle_while, handle_repeat, handle_if, handle_else,
    handle_paren, handle_name_clause, handle_argument. cbv zeta. rewrite !N by reflexivity. cbn [or_else].
  unfold handle_hole, argument_node. destruct (d_preceding d) as [b|]; [|reflexivity].
  rewrite (P b eq_refl). reflexivity.
Qed.
Lemma paren_rule d : is_kind root R_PARENTHESIZED_EXPRESSION (d_enclosing d) = true ->
  expression_field root 1 (d_enclosing d) = Some (1 :: d_enclosing d) ->
  (d_following d = Some (1 :: d_enclosing d) ->
     place_comment root d = Some (Leading, 1 :: d_enclosing d)) /\
  (d_preceding d = Some (1 :: d_enclosing d) -> d_following d = None ->
     place_comment root d = Some (Trailing, 1 :: d_enclosing d)).
Proof.
  intros K B.
  assert (N : forall k', kind_eqb R_PARENTHESIZED_EXPRESSION k' = false -> is_kind root k' (d_enclosing d) = false).
  { intros k' H. exact (other_kind _ _ _ K H). }
  unfold place_comment, handle_for, handle_function, handle_while, handle_repeat, handle_if, handle_else,
    handle_paren. cbv zeta. rewrite !N by reflexivity. cbn [or_else]. rewrite K, B. split.
  - intros F. rewrite F. cbn [is_path]. rewrite path_eqb_refl. reflexivity.
  - intros P F. rewrite F, P. cbn [is_path]. rewrite path_eqb_refl. reflexivity.
Qed.
End Rules.

(** * The order of the comments *)

(** A comment, the nodes around it aside. *)
Definition bare (d : decorated) : text * nat * nat * bool * nat :=
  (d_text d, d_before d, d_after d, d_own d, d_gap d).
Definition gap_bare (a : list parts) (x : parts) :=
  map bare (decorate (List.length a) [] None None match a with [] => true | _ => false end 0 (gap_of a x)).
Fixpoint flow (a b : list parts) :=
  match b with [] => [] | x :: r => gap_bare a x ++ flow (a ++ [x]) r end.
Lemma flow_app a b c : flow a (b ++ c) = flow a b ++ flow (a ++ b) c.
Proof.
  revert a. induction b as [|x b IH]; intros a; cbn [flow app].
  - rewrite app_nil_r. reflexivity.
  - rewrite IH, <- !app_assoc. reflexivity.
Qed.
Lemma decorate_bare g ps : forall e p n o l e' p' n',
  map bare (decorate g e p n o l ps) = map bare (decorate g e' p' n' o l ps).
Proof.
  induction ps as [|[[] x] r IH]; intros; cbn [decorate map]; auto. f_equal. apply IH.
Qed.

Section Order.
Variable root : syn.
Variable rf : bool.
Definition told (toks : list parts) (v : visitor) : Prop :=
  v_count v = List.length toks /\
  v_last v = match rev toks with y :: _ => Some (p_trailing y) | [] => None end /\
  map bare (map pt_comment (v_placed v) ++ v_pending v) = flow [] toks.

Lemma told_flush f toks v : told toks v -> told toks (flush root f v).
Proof.
  intros (A & B & C). split; [exact A|]. split; [exact B|]. rewrite <- C. cbn. rewrite app_nil_r, map_app.
  rewrite !map_app, !map_map. f_equal. apply map_ext. intros d. rewrite add_comment_is. reflexivity.
Qed.
Lemma told_visit t : forall p toks v, told toks v -> told (toks ++ syn_tokens t) (visit root rf p t v).
Proof.
  induction t as [k cs IH|x] using syn_ind'; intros p toks v N.
  - assert (A : forall i toks v, told toks v ->
      told (toks ++ flat_map syn_tokens cs) (visit_all root rf p i cs v)).
    { induction IH as [|c r Hc _ IHr]; intros i qs w M; cbn [visit_all flat_map].
      - rewrite app_nil_r. exact M.
      - rewrite app_assoc. apply IHr, Hc, M. }
    rewrite visit_node. cbn [syn_tokens]. destruct (is_list k); [apply A, N|].
    assert (E : told toks (enter root p v)).
    { pose proof (told_flush (Some p) toks v N) as F. unfold enter.
      destruct (v_following v) as [[|i]|]; [exact F|exact N|exact F]. }
    specialize (A 0 _ _ E). set (w := visit_all root rf p 0 cs (enter root p v)) in *. clearbody w.
    exact (told_flush None _ (set_following None (set_parents (removelast (v_parents w)) w)) A).
  - destruct N as (A & B & C). cbn [visit syn_tokens]. unfold visit_token. set (v1 := {| v_pending := _ |}).
    assert (N : told (toks ++ [x]) v1).
    { unfold told, v1. cbn [v_count v_last v_pending v_placed].
      rewrite app_length, rev_app_distr, A. cbn [List.length rev app]. split; [lia|]. split; [reflexivity|].
      rewrite app_assoc, map_app, C, flow_app. f_equal. cbn [flow app]. rewrite app_nil_r.
      unfold gap_bare. rewrite (decorate_bare _ _ _ _ _ _ _ [] None None). f_equal. rewrite B. unfold gap_of.
      destruct (exists_last' toks) as [-> |[t' [y ->]]]; [reflexivity|].
      rewrite rev_app_distr. cbn [rev app]. destruct t'; reflexivity. }
    clearbody v1. destruct (v_following v) as [i|]; [|exact N]. exact (told_flush _ _ v1 N).
Qed.

Theorem attached_flow ps z k cs : root = Node k cs -> is_list k = false ->
  syn_tokens root = ps ++ [z] -> p_trailing z = [] ->
  map bare (map pt_comment (attached root rf)) = flow [] (ps ++ [z]).
Proof.
  intros Er L E Z. unfold attached, finish.
  assert (N : told (ps ++ [z]) (visit root rf [] root new_visitor)).
  { rewrite <- E. apply (told_visit root [] [] new_visitor). repeat split; constructor. }
  assert (Pe : v_pending (visit root rf [] root new_visitor) = []).
  { rewrite Er at 2. rewrite visit_node, L. reflexivity. }
  destruct N as (_ & B & D). rewrite B, rev_app_distr. cbn [rev app]. rewrite Z. cbn [decorate map].
  rewrite Pe, app_nil_r in D. rewrite app_nil_r. exact D.
Qed.
End Order.

Lemma gap_bare_gap a x : Forall (fun d => snd d = List.length a) (gap_bare a x).
Proof.
  unfold gap_bare. apply Forall_map. eapply Forall_impl; [|apply decorate_around]. intros d (_ & _ & E). exact E.
Qed.
Lemma flow_gap b : forall a, Forall (fun d => List.length a <= snd d < List.length a + List.length b) (flow a b).
Proof.
  induction b as [|x b IH]; intros a; cbn [flow]; [constructor|]. apply Forall_app. split.
  - eapply Forall_impl; [|apply gap_bare_gap]. intros d. cbn. lia.
  - eapply Forall_impl; [|apply IH]. intros d. cbn. rewrite app_length. cbn. lia.
Qed.
Lemma map_split {X Y} (f : X -> Y) l : forall a b, map f l = a ++ b ->
  exists l1 l2, l = l1 ++ l2 /\ map f l1 = a /\ map f l2 = b.
Proof.
  intros a. revert l. induction a as [|y a IH]; intros l b E.
  - exists [], l. auto.
  - destruct l as [|x l]; [discriminate E|]. cbn [map app] in E. injection E as E1 E2.
    destruct (IH l b E2) as (l1 & l2 & -> & H1 & H2). exists (x :: l1), l2. cbn. rewrite E1, H1. auto.
Qed.
Lemma flow_split pl a x b : map bare (map pt_comment pl) = flow [] (a ++ x :: b) ->
  exists A1 A2 A3, pl = A1 ++ A2 ++ A3 /\ map bare (map pt_comment A2) = gap_bare a x /\
    Forall (fun s => d_gap (pt_comment s) < List.length a) A1 /\
    Forall (fun s => d_gap (pt_comment s) = List.length a) A2 /\
    Forall (fun s => List.length a < d_gap (pt_comment s)) A3.
Proof.
  rewrite map_map, flow_app. cbn [app flow]. intros E.
  destruct (map_split _ _ _ _ E) as (A1 & A & -> & E1 & E2).
  destruct (map_split _ _ _ _ E2) as (A2 & A3 & -> & E3 & E4).
  exists A1, A2, A3. split; [reflexivity|]. split; [rewrite map_map; exact E3|].
  assert (T : forall l fl (P : nat -> Prop), map (fun s => bare (pt_comment s)) l = fl ->
    Forall (fun d => P (snd d)) fl -> Forall (fun s => P (d_gap (pt_comment s))) l).
  { intros l fl P <-. clear. induction l as [|s l IH]; intros F; constructor.
    - exact (Forall_inv F).
    - exact (IH (Forall_inv_tail F)). }
  split; [|split].
  - refine (T A1 _ (fun n => n < List.length a) E1 _). eapply Forall_impl; [|apply flow_gap]. intros d. cbn. lia.
  - exact (T A2 _ (fun n => n = List.length a) E3 (gap_bare_gap a x)).
  - refine (T A3 _ (fun n => List.length a < n) E4 _). eapply Forall_impl; [|apply flow_gap]. intros d.
    rewrite app_length. cbn. lia.
Qed.
