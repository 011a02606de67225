(** The nodes around a comment: what biome's walk over the syntax tree
    (CommentsModel.v, [visit]) finds. *)
From Coq Require Import List Arith Bool NArith Lia.
From Verif Require Import Text SyntaxKind ParseModel ParseSpec FmtTree CommentsModel CommentsSpec
  CommentsProofs AstModel SourceCommentProofs.
Import ListNotations.

(** * The children of a node, lists passed over *)

Fixpoint spread (p : path) (c : syn) : list (path * syn) :=
  match c with
  | Node k cs =>
    if is_list k then
      (fix go (i : nat) (l : list syn) : list (path * syn) :=
         match l with [] => [] | x :: r => spread (i :: p) x ++ go (S i) r end) 0 cs
    else [(p, c)]
  | Tok _ => [(p, c)]
  end.
Fixpoint kids_from (p : path) (i : nat) (l : list syn) : list (path * syn) :=
  match l with [] => [] | x :: r => spread (i :: p) x ++ kids_from p (S i) r end.
Definition kids (p : path) (cs : list syn) : list (path * syn) := kids_from p 0 cs.
Lemma spread_list p k cs : is_list k = true -> spread p (Node k cs) = kids p cs.
Proof.
  intros L. cbn [spread]. rewrite L. unfold kids. generalize 0.
  induction cs as [|c r IH]; intros i; [reflexivity|]. cbn [kids_from]. f_equal. apply IH.
Qed.
Lemma spread_node p k cs : is_list k = false -> spread p (Node k cs) = [(p, Node k cs)].
Proof. intros L. cbn [spread]. rewrite L. reflexivity. Qed.

Definition ktoks (ks : list (path * syn)) : list parts := flat_map (fun x => syn_tokens (snd x)) ks.
Definition kwidth (ks : list (path * syn)) : nat := List.length (ktoks ks).
Lemma ktoks_app a b : ktoks (a ++ b) = ktoks a ++ ktoks b.
Proof. apply flat_map_app. Qed.
Lemma kwidth_app a b : kwidth (a ++ b) = kwidth a + kwidth b.
Proof. unfold kwidth. rewrite ktoks_app, app_length. reflexivity. Qed.
Lemma kwidth_one q c : kwidth [(q, c)] = width c.
Proof. unfold kwidth, ktoks, width. cbn. rewrite app_nil_r. reflexivity. Qed.
Lemma kwidth_cons q c r : kwidth ((q, c) :: r) = width c + kwidth r.
Proof. change ((q, c) :: r) with ([(q, c)] ++ r). rewrite kwidth_app, kwidth_one. reflexivity. Qed.

Lemma kids_from_tokens cs (H : Forall (fun c => forall p, ktoks (spread p c) = syn_tokens c) cs) :
  forall p i, ktoks (kids_from p i cs) = flat_map syn_tokens cs.
Proof.
  induction H as [|c r Hc _ IH]; intros p i; [reflexivity|]. cbn [kids_from flat_map].
  rewrite ktoks_app, Hc, IH. reflexivity.
Qed.
Lemma spread_tokens c : forall p, ktoks (spread p c) = syn_tokens c.
Proof.
  induction c as [k cs IH|x] using syn_ind'; intros p.
  - destruct (is_list k) eqn:L; [|rewrite spread_node by exact L; cbn; rewrite app_nil_r; reflexivity].
    rewrite spread_list by exact L. apply kids_from_tokens, IH.
  - reflexivity.
Qed.
Lemma kids_tokens p cs : ktoks (kids p cs) = flat_map syn_tokens cs.
Proof. apply kids_from_tokens, Forall_forall. intros c _. apply spread_tokens. Qed.
Lemma kids_width p k cs : kwidth (kids p cs) = width (Node k cs).
Proof. unfold kwidth. rewrite kids_tokens. reflexivity. Qed.

Definition is_node (c : syn) : bool := match c with Node _ _ => true | Tok _ => false end.
Fixpoint firstnode (ks : list (path * syn)) : option path :=
  match ks with
  | [] => None
  | (q, c) :: r => if is_node c then Some q else firstnode r
  end.
Fixpoint lastnode (ks : list (path * syn)) : option path :=
  match ks with
  | [] => None
  | (q, c) :: r =>
    match lastnode r with Some q' => Some q' | None => if is_node c then Some q else None end
  end.
Lemma firstnode_app a b :
  firstnode (a ++ b) = match firstnode a with Some q => Some q | None => firstnode b end.
Proof. induction a as [|[q c] r IH]; [reflexivity|]. cbn. destruct (is_node c); auto. Qed.
Lemma lastnode_app a b :
  lastnode (a ++ b) = match lastnode b with Some q => Some q | None => lastnode a end.
Proof.
  induction a as [|[q c] r IH]; cbn; [destruct (lastnode b); reflexivity|]. rewrite IH.
  destruct (lastnode b); reflexivity.
Qed.

(** * Trees in which every node begins with a token *)

Inductive solid : syn -> Prop :=
| solid_tok x : solid (Tok x)
| solid_node k cs :
    Forall solid cs ->
    (is_list k = false -> forall p q c r, kids p cs = (q, c) :: r -> 1 <= width c) ->
    solid (Node k cs).
Lemma spread_solid c : solid c -> forall p x, In x (spread p c) ->
  solid (snd x) /\ match snd x with Node k _ => is_list k = false | Tok _ => True end.
Proof.
  induction c as [k cs IH|y] using syn_ind'; intros S p x I.
  - inversion S as [|? ? F _]; subst. destruct (is_list k) eqn:L.
    + rewrite spread_list in I by exact L. unfold kids in I. revert I. generalize 0.
      clear S. induction IH as [|c r Hc _ IHr]; intros i I; [destruct I|].
      cbn [kids_from] in I. apply in_app_or in I as [I|I].
      * exact (Hc (Forall_inv F) _ _ I).
      * exact (IHr (Forall_inv_tail F) _ I).
    + rewrite spread_node in I by exact L. destruct I as [<-|[]]. cbn [snd]. auto.
  - destruct I as [<-|[]]. cbn [snd]. split; [constructor|exact Logic.I].
Qed.
Lemma kids_solid k cs p x : solid (Node k cs) -> In x (kids p cs) ->
  solid (snd x) /\ match snd x with Node k _ => is_list k = false | Tok _ => True end.
Proof.
  intros S. inversion S as [|? ? F _]; subst. unfold kids. generalize 0. clear S.
  induction F as [|c r Hc _ IH]; intros i I; [destruct I|].
  cbn [kids_from] in I. apply in_app_or in I as [I|I]; [exact (spread_solid c Hc _ _ I)|exact (IH _ I)].
Qed.
Lemma first_kid k cs p q c r : solid (Node k cs) -> is_list k = false -> kids p cs = (q, c) :: r ->
  1 <= width c.
Proof. intros S L E. inversion S as [|? ? _ H]; subst. exact (H L p q c r E). Qed.

Section Walk.
Variable root : syn.
Variable rf : bool.

(** * Places in the tree *)

(** The node at [p] has [g] tokens before it. *)
Inductive reach : path -> nat -> syn -> Prop :=
| R_root : reach [] 0 root
| R_kid p g k cs d1 q c d2 :
    reach p g (Node k cs) -> is_list k = false -> kids p cs = d1 ++ (q, c) :: d2 ->
    reach q (g + kwidth d1) c.

(** The nodes around a comment: it stands in front of the child [c] of the
    innermost node around it. *)
Definition around (d : decorated) : Prop :=
  exists p g k cs d1 q c d2, reach p g (Node k cs) /\ is_list k = false /\
    kids p cs = d1 ++ (q, c) :: d2 /\ 1 <= width c /\
    (1 <= kwidth d1 \/ d1 = [] /\ p = []) /\
    d_enclosing d = p /\ d_gap d = g + kwidth d1 /\ d_preceding d = lastnode d1 /\
    (d1 = [] /\ is_node c = false \/
     d_following d = if is_node c then Some q else firstnode d2).
Definition settled (q : placement) : Prop :=
  around (pt_comment q) /\ q = add_comment root (pt_comment q).

Lemma add_settled d : around d -> settled (add_comment root d).
Proof. intros A. unfold settled. rewrite add_comment_is. auto. Qed.

(** * The walk *)

Definition visit_kids (ks : list (path * syn)) (v : visitor) : visitor :=
  fold_left (fun v x => visit root rf (fst x) (snd x) v) ks v.
Lemma visit_kids_app a b v : visit_kids (a ++ b) v = visit_kids b (visit_kids a v).
Proof. apply fold_left_app. Qed.
Lemma visit_spread t : forall p v, visit root rf p t v = visit_kids (spread p t) v.
Proof.
  induction t as [k cs IH|x] using syn_ind'; intros p v; [|reflexivity].
  destruct (is_list k) eqn:L; [|rewrite spread_node by exact L; reflexivity].
  rewrite visit_node, L, spread_list by exact L. unfold kids. generalize 0.
  revert v. induction IH as [|c r Hc _ IHr]; intros v i; [reflexivity|].
  cbn [visit_all kids_from]. rewrite visit_kids_app, <- Hc. apply IHr.
Qed.
Lemma visit_all_kids p cs : forall i v, visit_all root rf p i cs v = visit_kids (kids_from p i cs) v.
Proof.
  induction cs as [|c r IH]; intros i v; [reflexivity|]. cbn [visit_all kids_from].
  rewrite visit_kids_app, <- visit_spread. apply IH.
Qed.

(** Between the beginning of a node and its first token. *)
Definition begun (v : visitor) : Prop :=
  exists i, v_following v = Some (S i) /\ S i < List.length (v_parents v) /\ v_pending v = [] /\
    Forall settled (v_placed v) /\
    forall d, d_enclosing d = enclosing v -> d_preceding d = v_preceding v ->
      d_gap d = v_count v -> d_following d = nth_error (v_parents v) (S i) -> around d.
(** Comments in front of tokens wait for the next node. *)
Definition waits (p : path) (g : nat) (done : list (path * syn)) (d : decorated) : Prop :=
  d_enclosing d = p /\ exists d1 q x d2, done = d1 ++ (q, Tok x) :: d2 /\ firstnode d2 = None /\
    1 <= kwidth d1 /\ d_preceding d = lastnode d1 /\ d_gap d = g + kwidth d1.
(** After some children of a node. *)
Record amid (p : path) (g : nat) (done : list (path * syn)) (v : visitor) : Prop := {
  am_following : v_following v = None;
  am_parents : exists ps, v_parents v = ps ++ [p];
  am_preceding : v_preceding v = lastnode done;
  am_count : v_count v = g + kwidth done;
  am_pending : Forall (waits p g done) (v_pending v);
  am_placed : Forall settled (v_placed v)
}.

Lemma waits_more p g done x d : is_node (snd x) = false -> waits p g done d -> waits p g (done ++ [x]) d.
Proof.
  intros N (E & d1 & q & y & d2 & -> & F & W & P & G). split; [exact E|].
  exists d1, q, y, (d2 ++ [x]). rewrite <- app_assoc. split; [reflexivity|]. rewrite firstnode_app, F.
  destruct x as [u c]. cbn in *. rewrite N. auto.
Qed.
(** The node that follows turns up, or the parent ends. *)
Lemma waits_settled p g k cs done rest f l :
  reach p g (Node k cs) -> is_list k = false -> kids p cs = done ++ rest -> f = firstnode rest ->
  Forall (waits p g done) l ->
  Forall settled (map (fun d => add_comment root (with_following f d)) l).
Proof.
  intros R L K F W. apply Forall_map. eapply Forall_impl; [|exact W].
  intros d (E & d1 & q & y & d2 & -> & N & Wd & P & G). apply add_settled.
  exists p, g, k, cs, d1, q, (Tok y), (d2 ++ rest). split; [exact R|]. split; [exact L|].
  split; [rewrite K, <- app_assoc; reflexivity|]. split; [cbn; lia|]. split; [auto|].
  cbn. split; [exact E|]. split; [exact G|]. split; [exact P|]. right.
  rewrite firstnode_app, N. exact F.
Qed.

(** What visiting a child does. *)
Definition when_begun (c : syn) : Prop := forall q v, begun v ->
  solid c -> (is_node c = true -> reach q (v_count v) c) -> 1 <= width c ->
  let w := visit root rf q c v in
  v_following w = None /\ v_parents w = v_parents v /\ v_count w = v_count v + width c /\
  v_pending w = [] /\ v_preceding w = (if is_node c then Some q else None) /\
  Forall settled (v_placed w).
Definition when_amid (c : syn) : Prop := forall q p g k cs done rest v,
  reach p g (Node k cs) -> is_list k = false -> kids p cs = done ++ (q, c) :: rest ->
  1 <= kwidth done -> solid c -> amid p g done v ->
  amid p g (done ++ [(q, c)]) (visit root rf q c v) /\
  v_parents (visit root rf q c v) = v_parents v.

Lemma decorate_around gap encl prec next ps : forall own lines,
  Forall (fun d => d_enclosing d = encl /\ d_preceding d = prec /\ d_gap d = gap)
    (decorate gap encl prec next own lines ps).
Proof.
  induction ps as [|[[] x] r IH]; intros own lines; cbn [decorate]; auto.
Qed.

Lemma token_begun x : when_begun (Tok x).
Proof.
  intros q v (i & Ef & Il & Pe & Pl & C) _ _ _. cbn [visit]. cbv zeta. unfold visit_token.
  rewrite Ef, Pe. cbn [v_following v_parents v_count v_pending v_preceding v_placed set_preceding
    set_following flush app]. repeat (split; [first [reflexivity | cbn; lia]|]).
  apply Forall_app. split; [exact Pl|]. apply Forall_map.
  eapply Forall_impl; [|apply decorate_around]. intros d (A & B & D). apply add_settled, C; auto.
Qed.
Lemma token_amid x : when_amid (Tok x).
Proof.
  intros q p g k cs done rest v R L K W _ [Fo [ps Pa] Pr Co Pe Pl]. cbn [visit]. unfold visit_token.
  rewrite Fo. split; [|reflexivity]. split; cbn [v_following v_parents v_count v_pending v_preceding v_placed].
  - reflexivity.
  - exists ps. exact Pa.
  - rewrite lastnode_app. exact Pr.
  - rewrite Co, kwidth_app, kwidth_one. cbn. lia.
  - apply Forall_app. split.
    + eapply Forall_impl; [|exact Pe]. intros d. apply waits_more. reflexivity.
    + eapply Forall_impl; [|apply decorate_around]. intros d (A & B & D). split.
      * rewrite A. unfold enclosing. rewrite Fo, Pa, last_last. reflexivity.
      * exists done, q, x, []. split; [reflexivity|]. split; [reflexivity|]. split; [exact W|].
        split; [congruence|]. congruence.
  - exact Pl.
Qed.

(** The children of a node, from its beginning. *)
Lemma rest_amid p g k cs rest : forall done v,
  reach p g (Node k cs) -> is_list k = false -> solid (Node k cs) -> kids p cs = done ++ rest ->
  Forall (fun x => when_amid (snd x)) rest -> 1 <= kwidth done -> amid p g done v ->
  amid p g (done ++ rest) (visit_kids rest v) /\ v_parents (visit_kids rest v) = v_parents v.
Proof.
  induction rest as [|[q c] rest IH]; intros done v R L S K F W A.
  - rewrite app_nil_r. auto.
  - pose proof (Forall_inv F) as Fc. cbn [snd] in Fc.
    assert (Sc : solid c).
    { apply (kids_solid k cs p (q, c) S). rewrite K. apply in_or_app. right. left. reflexivity. }
    destruct (Fc q p g k cs done rest v R L K W Sc A) as [A1 P1].
    change (visit_kids ((q, c) :: rest) v) with (visit_kids rest (visit root rf q c v)).
    rewrite <- P1. replace (done ++ (q, c) :: rest) with ((done ++ [(q, c)]) ++ rest)
      by (rewrite <- app_assoc; reflexivity).
    apply IH; auto.
    + rewrite K, <- app_assoc. reflexivity.
    + exact (Forall_inv_tail F).
    + rewrite kwidth_app. lia.
Qed.
Lemma inside_begun q g k cs v ps :
  reach q g (Node k cs) -> is_list k = false -> solid (Node k cs) -> 1 <= width (Node k cs) ->
  Forall (fun x => when_begun (snd x) /\ when_amid (snd x)) (kids q cs) ->
  begun v -> v_parents v = ps ++ [q] -> v_count v = g ->
  amid q g (kids q cs) (visit_kids (kids q cs) v) /\
  v_parents (visit_kids (kids q cs) v) = ps ++ [q].
Proof.
  intros R L S Wd F B Pa Co. remember (kids q cs) as ks eqn:Ek. symmetry in Ek.
  destruct ks as [|[q0 c0] rest].
  { rewrite <- (kids_width q), Ek in Wd. cbn in Wd. lia. }
  pose proof (first_kid k cs q q0 c0 rest S L Ek) as W0.
  pose proof (Forall_inv F) as [F0 _]. cbn [snd] in F0.
  assert (S0 : solid c0).
  { apply (kids_solid k cs q (q0, c0) S). rewrite Ek. left. reflexivity. }
  destruct (F0 q0 v B S0) as (G1 & G2 & G3 & G4 & G5 & G6); [|exact W0|].
  { intros _. rewrite Co. replace g with (g + kwidth []) by (cbn; lia).
    exact (R_kid q g k cs [] q0 c0 rest R L Ek). }
  change (visit_kids ((q0, c0) :: rest) v) with (visit_kids rest (visit root rf q0 c0 v)).
  set (v0 := visit root rf q0 c0 v) in *. clearbody v0.
  destruct (rest_amid q g k cs rest [(q0, c0)] v0 R L S Ek) as [A1 A2].
  - apply Forall_inv_tail in F. eapply Forall_impl; [|exact F]. intros x [_ H]. exact H.
  - rewrite kwidth_one. exact W0.
  - split; auto.
    + exists ps. congruence.
    + rewrite G3, Co, kwidth_one. reflexivity.
    + rewrite G4. constructor.
  - split; [exact A1|congruence].
Qed.

Lemma leave_amid q g k cs v ps :
  reach q g (Node k cs) -> is_list k = false -> amid q g (kids q cs) v -> v_parents v = ps ++ [q] ->
  let w := leave root q v in
  v_following w = None /\ v_parents w = ps /\ v_count w = g + width (Node k cs) /\
  v_pending w = [] /\ v_preceding w = Some q /\ Forall settled (v_placed w).
Proof.
  intros R L [Fo _ Pr Co Pe Pl] Pa. cbv zeta. unfold leave.
  cbn [v_following v_parents v_count v_pending v_preceding v_placed set_preceding set_following
    set_parents flush].
  split; [reflexivity|]. split; [rewrite Pa, removelast_last; reflexivity|].
  split; [rewrite Co, (kids_width q k); reflexivity|]. split; [reflexivity|]. split; [reflexivity|].
  apply Forall_app. split; [exact Pl|].
  apply (waits_settled q g k cs (kids q cs) [] None); auto. rewrite app_nil_r. reflexivity.
Qed.

Lemma node_begun k cs : is_list k = false ->
  (forall q, Forall (fun x => when_begun (snd x) /\ when_amid (snd x)) (kids q cs)) ->
  when_begun (Node k cs).
Proof.
  intros L F q v (i & Ef & Il & Pe & Pl & C) S R Wd. cbv zeta. rewrite visit_node, L, visit_all_kids.
  fold (kids q cs). specialize (R eq_refl).
  assert (B : begun (enter root q v)).
  { unfold enter. rewrite Ef. exists i.
    cbn [v_following v_parents v_count v_pending v_preceding v_placed set_parents].
    split; [exact Ef|]. split; [rewrite app_length; lia|]. split; [exact Pe|]. split; [exact Pl|].
    rewrite nth_error_app1 by exact Il. intros d H1. apply C. rewrite H1. unfold enclosing.
    cbn [v_following v_parents set_parents]. rewrite Ef, app_nth1 by lia. reflexivity. }
  assert (Pa : v_parents (enter root q v) = v_parents v ++ [q]) by (unfold enter; rewrite Ef; reflexivity).
  assert (Co : v_count (enter root q v) = v_count v) by (unfold enter; rewrite Ef; reflexivity).
  destruct (inside_begun q (v_count v) k cs _ _ R L S Wd (F q) B Pa Co) as [A Pb].
  exact (leave_amid q _ k cs _ _ R L A Pb).
Qed.
Lemma node_amid k cs : is_list k = false ->
  (forall q, Forall (fun x => when_begun (snd x) /\ when_amid (snd x)) (kids q cs)) ->
  when_amid (Node k cs).
Proof.
  intros L F q p g k' cs' done rest v R L' K W S [Fo [ps Pa] Pr Co Pe Pl].
  rewrite visit_node, L, visit_all_kids. fold (kids q cs).
  pose proof (R_kid p g k' cs' done q (Node k cs) rest R L' K) as Rq.
  set (v1 := enter root q v).
  assert (E1 : v_following v1 = Some (List.length (v_parents v)) /\ v_parents v1 = v_parents v ++ [q] /\
    v_count v1 = v_count v /\ v_pending v1 = [] /\ v_preceding v1 = lastnode done /\
    Forall settled (v_placed v1)).
  { unfold v1, enter. rewrite Fo.
    cbn [v_following v_parents v_count v_pending v_preceding v_placed set_parents set_following flush].
    repeat (split; [first [reflexivity|exact Pr]|]). apply Forall_app. split; [exact Pl|].
    apply (waits_settled p g k' cs' done ((q, Node k cs) :: rest)); auto. }
  destruct E1 as (E1 & E2 & E3 & E4 & E5 & E6). clearbody v1.
  assert (Z : forall w, v_following w = None -> v_parents w = v_parents v ->
    v_count w = (g + kwidth done) + width (Node k cs) -> v_pending w = [] -> v_preceding w = Some q ->
    Forall settled (v_placed w) ->
    amid p g (done ++ [(q, Node k cs)]) w /\ v_parents w = v_parents v).
  { intros w H1 H2 H3 H4 H5 H6. split; [|exact H2]. split; auto.
    - exists ps. congruence.
    - rewrite H5, lastnode_app. reflexivity.
    - rewrite H3, kwidth_app, kwidth_one. lia.
    - rewrite H4. constructor. }
  destruct (Nat.eq_dec (width (Node k cs)) 0) as [W0|W0].
  - assert (K0 : kids q cs = []).
    { destruct (kids q cs) as [|[q0 c0] r] eqn:E; [reflexivity|].
      pose proof (first_kid k cs q q0 c0 r S L E). rewrite <- (kids_width q), E, kwidth_cons in W0. lia. }
    rewrite K0. cbn [visit_kids fold_left]. unfold leave. apply Z;
      cbn [v_following v_parents v_count v_pending v_preceding v_placed set_preceding set_following
        set_parents flush]; auto.
    + rewrite E2, removelast_last. reflexivity.
    + rewrite E3, Co, W0. lia.
    + rewrite E4. cbn [map]. rewrite app_nil_r. exact E6.
  - assert (B : begun v1).
    { assert (Ln : List.length (v_parents v) = Datatypes.S (List.length ps)) by (rewrite Pa, app_length; cbn; lia).
      exists (List.length ps). rewrite E1, E2, Ln. split; [reflexivity|].
      split; [rewrite app_length; cbn; lia|]. split; [exact E4|]. split; [exact E6|].
      rewrite <- Ln, nth_error_app2, Nat.sub_diag by lia. cbn [nth_error].
      intros d D1 D2 D3 D4. exists p, g, k', cs', done, q, (Node k cs), rest.
      split; [exact R|]. split; [exact L'|]. split; [exact K|]. split; [lia|]. split; [auto|].
      split; [|split; [congruence|split; [congruence|right; exact D4]]].
      rewrite D1. unfold enclosing. rewrite E1, Ln, E2, Pa, <- app_assoc, app_nth2, Nat.sub_diag by lia.
      reflexivity. }
    destruct (inside_begun q (g + kwidth done) k cs v1 (v_parents v) Rq L S) as [A Pb]; auto; [lia|congruence|].
    destruct (leave_amid q _ k cs _ _ Rq L A Pb) as (H1 & H2 & H3 & H4 & H5 & H6).
    apply Z; auto.
Qed.

Lemma walk_holds t : forall p x, In x (spread p t) -> when_begun (snd x) /\ when_amid (snd x).
Proof.
  induction t as [k cs IH|y] using syn_ind'; intros p x I.
  - assert (F : forall q i, Forall (fun x => when_begun (snd x) /\ when_amid (snd x)) (kids_from q i cs)).
    { clear I. intros q. induction IH as [|c r Hc _ IHr]; intros i; [constructor|]. cbn [kids_from].
      apply Forall_app. split; [|apply IHr].
      apply Forall_forall. intros z. exact (Hc _ z). }
    destruct (is_list k) eqn:L.
    + rewrite spread_list in I by exact L. exact (proj1 (Forall_forall _ _) (F p 0) x I).
    + rewrite spread_node in I by exact L. destruct I as [<-|[]]. cbn [snd]. split.
      * apply node_begun; [exact L|]. intros q. apply F.
      * apply node_amid; [exact L|]. intros q. apply F.
  - destruct I as [<-|[]]. split; [apply token_begun|apply token_amid].
Qed.
Lemma kids_hold p cs : forall i, Forall (fun x => when_begun (snd x) /\ when_amid (snd x)) (kids_from p i cs).
Proof.
  induction cs as [|c r IH]; intros i; [constructor|]. cbn [kids_from]. apply Forall_app.
  split; [|apply IH]. apply Forall_forall. intros z. exact (walk_holds c _ z).
Qed.

Theorem attached_around k0 cs0 ps z :
  root = Node k0 cs0 -> is_list k0 = false -> solid root ->
  syn_tokens root = ps ++ [z] -> p_trailing z = [] ->
  Forall settled (attached root rf).
Proof.
  intros Er L S Ez Z. unfold attached, finish.
  assert (N : noted (ps ++ [z]) (visit root rf [] root new_visitor)).
  { rewrite <- Ez. apply (noted_visit root rf root [] [] new_visitor). repeat split; constructor. }
  destruct N as (_ & B & _ & _). rewrite B, rev_app_distr. cbn [rev app]. rewrite Z. cbn [decorate map].
  rewrite app_nil_r. clear B.
  assert (V : visit root rf [] root new_visitor =
    leave root [] (visit_kids (kids [] cs0) (enter root [] new_visitor))).
  { rewrite Er at 2. rewrite visit_node, L, visit_all_kids. reflexivity. }
  rewrite V. clear V.
  assert (R0 : reach [] 0 (Node k0 cs0)) by (rewrite <- Er; constructor).
  rewrite Er in S.
  pose proof (kids_hold [] cs0 0) as F. fold (kids [] cs0) in F.
  destruct (kids [] cs0) as [|[q c] rest] eqn:Ek.
  { pose proof (kids_tokens [] cs0) as T. rewrite Ek in T. rewrite Er in Ez. cbn [syn_tokens] in Ez.
    rewrite <- T in Ez. destruct ps; discriminate Ez. }
  pose proof (first_kid k0 cs0 [] q c rest S L Ek) as Wc.
  assert (Sc : solid c /\ match c with Node k _ => is_list k = false | Tok _ => True end).
  { apply (kids_solid k0 cs0 [] (q, c) S). rewrite Ek. left. reflexivity. }
  destruct Sc as [Sc Lc].
  set (v0 := enter root [] new_visitor).
  change (visit_kids ((q, c) :: rest) v0) with (visit_kids rest (visit root rf q c v0)).
  assert (A : amid [] 0 [(q, c)] (visit root rf q c v0) /\ v_parents (visit root rf q c v0) = [[]]).
  { destruct c as [k cs|x].
    - rewrite visit_node, Lc, visit_all_kids. fold (kids q cs).
      pose proof (R_kid [] 0 k0 cs0 [] q (Node k cs) rest R0 L Ek) as Rq. cbn [Nat.add] in Rq.
      change (kwidth []) with 0 in Rq.
      assert (Bg : begun (enter root q v0)).
      { exists 0. cbn. split; [reflexivity|]. split; [lia|]. split; [reflexivity|]. split; [constructor|].
        intros d D1 D2 D3 D4. exists [], 0, k0, cs0, [], q, (Node k cs), rest.
        split; [exact R0|]. split; [exact L|]. split; [exact Ek|]. split; [exact Wc|]. split; [auto|].
        split; [exact D1|]. split; [exact D3|]. split; [exact D2|]. right. exact D4. }
      destruct (inside_begun q 0 k cs (enter root q v0) [[]] Rq Lc Sc Wc) as [A Pb]; auto.
      { apply kids_hold. }
      destruct (leave_amid q _ k cs _ _ Rq Lc A Pb) as (H1 & H2 & H3 & H4 & H5 & H6).
      split; [|exact H2]. split; auto.
      + exists []. exact H2.
      + rewrite H3, kwidth_one. reflexivity.
      + rewrite H4. constructor.
    - cbn [visit]. unfold visit_token. cbn [v0 enter new_visitor v_following set_parents set_following flush
        v_parents v_pending v_placed v_preceding v_last v_count List.length app set_preceding enclosing].
      split; [|reflexivity]. split; cbn [v_following set_parents set_following flush
        v_parents v_pending v_placed v_preceding v_last v_count set_preceding];
        try reflexivity; [exists []; reflexivity|constructor|].
      cbn [map app]. apply Forall_map.
      eapply Forall_impl; [|apply decorate_around]. intros d (D1 & D2 & D3). apply add_settled.
      exists [], 0, k0, cs0, [], q, (Tok x), rest.
      split; [exact R0|]. split; [exact L|]. split; [exact Ek|]. split; [exact Wc|]. split; [auto|].
      cbn. split; [exact D1|]. split; [exact D3|]. split; [exact D2|]. left. auto. }
  destruct A as [A Pa]. set (v1 := visit root rf q c v0) in *. clearbody v1.
  destruct (rest_amid [] 0 k0 cs0 rest [(q, c)] v1 R0 L S Ek) as [A2 P2]; auto.
  - apply Forall_inv_tail in F. eapply Forall_impl; [|exact F]. intros x [_ H]. exact H.
  - rewrite kwidth_one. exact Wc.
  - rewrite Pa in P2. change ([(q, c)] ++ rest) with ((q, c) :: rest) in A2. rewrite <- Ek in A2.
    apply (leave_amid [] 0 k0 cs0 _ [] R0 L A2 P2).
Qed.
End Walk.
