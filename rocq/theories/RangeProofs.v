(** Proofs about range formatting. *)
From Coq Require Import List NArith Bool Arith Lia.
From Verif Require Import Text TextFacts LineEndingModel LineEndingSpec LineEndingProofs LineIndexModel LineIndexSpec LineIndexProofs
  DocsModel DocsSpec DocsProofs
  TextEditModel TextEditSpec TextEditProofs ProtoEditsModel ProtoEditsSpec ProtoEditsProofs
  SyntaxKind ParseModel ParseSpec ParseProofs ParseTree RangeModel RangeSpec.
Import ListNotations.

Section GreenInd.
Variable P : green -> Prop.
Hypothesis HT : forall t, P (GTok t).
Hypothesis HN : forall k cs, Forall P cs -> P (GNode k cs).
Fixpoint green_ind' (g : green) : P g :=
  match g with
  | GTok t => HT t
  | GNode k cs =>
    HN k cs ((fix go (l : list green) : Forall P l :=
                match l with
                | [] => Forall_nil P
                | c :: r => Forall_cons c (green_ind' c) (go r)
                end) cs)
  end.
End GreenInd.

Lemma green_tokens_eq : forall g, green_tokens g = tokens g.
Proof. induction g using green_ind'; reflexivity. Qed.

Lemma tree_text_node : forall k cs, tree_text (GNode k cs) = flat_map tree_text cs.
Proof.
  intros k cs. unfold tree_text at 1. cbn [tokens]. induction cs as [|c cs IH]; [reflexivity|].
  cbn [flat_map]. rewrite flat_map_app, IH. reflexivity.
Qed.

Lemma green_len_eq : forall g, green_len g = blen (tree_text g).
Proof.
  induction g as [t|k cs IH] using green_ind'.
  - cbn. rewrite app_nil_r. reflexivity.
  - rewrite tree_text_node. cbn [green_len].
    induction IH as [|c cs H IH IHl]; [reflexivity|]. cbn [map list_sum flat_map fold_right].
    rewrite blen_app, H. f_equal. exact IHl.
Qed.

Lemma sum_len_eq : forall ps, sum_len ps = total ps.
Proof. reflexivity. Qed.

Lemma sub_text : forall g a g' b, sub_at g a g' b -> tree_text g = a ++ tree_text g' ++ b.
Proof.
  induction 1 as [g|k l c r a g b H IH]; [rewrite app_nil_r; reflexivity|].
  rewrite tree_text_node, flat_map_app. cbn [flat_map]. rewrite IH, <- !app_assoc. reflexivity.
Qed.

Lemma sub_trans : forall g a g1 b, sub_at g a g1 b -> forall a1 g2 b1, sub_at g1 a1 g2 b1 ->
  sub_at g (a ++ a1) g2 (b1 ++ b).
Proof.
  induction 1 as [g|k l c r a g b H IH]; intros a1 g2 b1 H2.
  - rewrite app_nil_r. exact H2.
  - rewrite <- app_assoc, (app_assoc b1). constructor. apply IH. exact H2.
Qed.

Lemma sub_tokens : forall g a g' b, sub_at g a g' b ->
  forall P, Forall P (tokens g) -> Forall P (tokens g').
Proof.
  induction 1 as [g|k l c r a g b H IH]; intros P F; [exact F|]. apply IH.
  cbn [tokens] in F. rewrite flat_map_app in F. cbn [flat_map] in F.
  apply Forall_app in F. destruct F as [_ F]. apply Forall_app in F. tauto.
Qed.

Lemma sub_lists : forall g a g' b, sub_at g a g' b -> lists_of_nodes g = true -> lists_of_nodes g' = true.
Proof.
  induction 1 as [g|k l c r a g b H IH]; intros L; [exact L|]. apply IH.
  cbn [lists_of_nodes] in L. apply andb_prop in L. destruct L as [L _].
  rewrite forallb_app in L. cbn [forallb] in L. rewrite !andb_true_iff in L. tauto.
Qed.

(** ** The lists that are found *)
Definition placed_node (root : green) (base : nat) (n : snode) : Prop :=
  lies_in root base (n_green n) (n_pos n).
Definition list_node (root : green) (base : nat) (n : snode) : Prop :=
  placed_node root base n /\ exists cs, n_green n = GNode R_EXPRESSION_LIST cs.

Lemma placed_list : forall root base n, placed_node root base n ->
  kind_eqb (green_kind (n_green n)) R_EXPRESSION_LIST = true -> is_node n = true -> list_node root base n.
Proof.
  intros root base [path pos g] P K N. unfold is_node in N. cbn in *.
  destruct g as [k cs|t]; [|discriminate]. cbn in K. apply kind_eqb_eq in K. subst k.
  split; [exact P|]. exists cs. reflexivity.
Qed.

(** What is found below a node. *)
Definition inner (end_ : bool) (off : nat) (n : snode) : list snode :=
  flat_map (fun c => visit end_ off (n_green c) n (n_path c) (n_pos c)) (children n).
Definition pushed (n : snode) : list snode :=
  if kind_eqb (green_kind (n_green n)) R_EXPRESSION_LIST then [n] else [].

Lemma visit_node : forall end_ off k cs parent path pos,
  let n := {| n_path := path; n_pos := pos; n_green := GNode k cs |} in
  visit end_ off (GNode k cs) parent path pos
  = if is_contained end_ off n then pushed parent ++ inner end_ off n else [].
Proof.
  intros end_ off k cs parent path pos n. cbn [visit]. fold n.
  destruct (is_contained end_ off n); [|reflexivity]. unfold pushed. f_equal.
  unfold inner, children. cbn [n_green n_path n_pos n].
  assert (G : forall l i p,
    (fix go (i pos : nat) (cs : list green) : list snode :=
       match cs with
       | [] => []
       | c :: r => visit end_ off c n (path ++ [i]) pos ++ go (S i) (pos + green_len c) r
       end) i p l
    = flat_map (fun c => visit end_ off (n_green c) n (n_path c) (n_pos c)) (children_from path i p l)).
  { induction l as [|c l IH]; intros i p; [reflexivity|]. cbn [children_from flat_map n_green n_path n_pos].
    f_equal. apply IH. }
  apply G.
Qed.

Lemma children_placed : forall root base n, placed_node root base n ->
  Forall (placed_node root base) (children n).
Proof.
  intros root base [path pos g] (a & b & SB & P). unfold children. cbn [n_green n_pos n_path] in *.
  destruct g as [k cs|t]; [|constructor].
  assert (G : forall r l i, cs = l ++ r ->
    Forall (placed_node root base) (children_from path i (pos + blen (flat_map tree_text l)) r)).
  { induction r as [|c r IH]; intros l i E; [constructor|]. cbn [children_from]. constructor.
    - exists (a ++ flat_map tree_text l), (flat_map tree_text r ++ b). cbn [n_green n_pos].
      split; [|rewrite blen_app; lia]. eapply sub_trans; [exact SB|]. rewrite E.
      pose proof (sub_down k l c r [] c [] (sub_here c)) as D. rewrite app_nil_r in D. exact D.
    - replace (pos + blen (flat_map tree_text l) + green_len c)
        with (pos + blen (flat_map tree_text (l ++ [c]))).
      + apply (IH (l ++ [c]) (S i)). rewrite E, <- app_assoc. reflexivity.
      + rewrite flat_map_app, blen_app, green_len_eq. cbn. rewrite app_nil_r. lia. }
  specialize (G cs [] 0 eq_refl). cbn [flat_map blen] in G. rewrite Nat.add_0_r in G. exact G.
Qed.

Lemma children_from_in : forall path cs i pos c, In c (children_from path i pos cs) -> In (n_green c) cs.
Proof.
  induction cs as [|g cs IH]; intros i pos c H; [destruct H|]. cbn [children_from] in H.
  destruct H as [<-|H]; [left; reflexivity|right; eapply IH; exact H].
Qed.

Lemma inner_lists : forall root base end_ off g path pos,
  placed_node root base {| n_path := path; n_pos := pos; n_green := g |} ->
  Forall (list_node root base) (inner end_ off {| n_path := path; n_pos := pos; n_green := g |}).
Proof.
  intros root base end_ off g. induction g as [t|k cs IH] using green_ind'; intros path pos PN; [constructor|].
  set (n := {| n_path := path; n_pos := pos; n_green := GNode k cs |}) in *.
  pose proof (children_placed _ _ _ PN) as F. unfold inner.
  apply Forall_forall. intros x Hx. apply in_flat_map in Hx. destruct Hx as (c & Hc & Hx).
  pose proof (proj1 (Forall_forall _ _) F c Hc) as PC.
  pose proof (children_from_in _ _ _ _ _ Hc) as IC. cbn [n_green n] in IC.
  destruct c as [cp cpos [ck ccs|ct]]; cbn [n_green n_path n_pos] in *; [|destruct Hx].
  rewrite visit_node in Hx. destruct (is_contained _ _ _); [|destruct Hx].
  apply in_app_or in Hx. destruct Hx as [Hx|Hx].
  - unfold pushed in Hx. destruct (kind_eqb (green_kind (n_green n)) R_EXPRESSION_LIST) eqn:K; [|destruct Hx].
    destruct Hx as [<-|[]]. apply placed_list; [exact PN|exact K|reflexivity].
  - pose proof (proj1 (Forall_forall _ _) IH _ IC cp cpos PC) as FI.
    exact (proj1 (Forall_forall _ _) FI x Hx).
Qed.

Lemma placed_root : forall root path pos,
  placed_node root pos {| n_path := path; n_pos := pos; n_green := root |}.
Proof. intros. exists [], []. split; [constructor|cbn; lia]. Qed.

Lemma find_inner : forall end_ off root,
  find_expression_lists end_ off root = inner end_ off {| n_path := []; n_pos := 0; n_green := root |}.
Proof. reflexivity. Qed.

Lemma found_lists : forall end_ off root,
  Forall (list_node root 0) (find_expression_lists end_ off root).
Proof. intros. rewrite find_inner. apply inner_lists. apply placed_root. Qed.

Lemma common_last_in : forall a b acc n, common_last a b acc = Some n -> In n a \/ acc = Some n.
Proof.
  induction a as [|x a IH]; intros [|y b] acc n H; cbn in H; auto.
  destruct (path_eqb (n_path x) (n_path y)).
  - destruct (IH _ _ _ H) as [I|I]; [left; right; exact I|]. injection I as ->. left. left. reflexivity.
  - auto.
Qed.

(** ** The run *)
Lemma skip_while_split : forall (A : Type) (p : A -> bool) l,
  exists a, l = a ++ skip_while p l /\ Forall (fun x => p x = true) a /\
            match skip_while p l with [] => True | x :: _ => p x = false end.
Proof.
  induction l as [|x l IH]; [exists []; repeat split; constructor|]. cbn [skip_while].
  destruct (p x) eqn:E.
  - destruct IH as (a & H1 & H2 & H3). exists (x :: a). repeat split; [cbn; f_equal; exact H1|constructor; assumption|exact H3].
  - exists []. repeat split; [constructor|exact E].
Qed.

Lemma take_while_split : forall (A : Type) (p : A -> bool) l,
  exists b, l = take_while p l ++ b /\ Forall (fun x => p x = true) (take_while p l) /\
            match b with [] => True | x :: _ => p x = false end.
Proof.
  induction l as [|x l IH]; [exists []; repeat split; constructor|]. cbn [take_while].
  destruct (p x) eqn:E.
  - destruct IH as (b & H1 & H2 & H3). exists b. repeat split; [cbn; f_equal; exact H1|constructor; assumption|exact H3].
  - exists (x :: l). repeat split; [constructor|exact E].
Qed.

Lemma children_from_app : forall path l1 l2 i pos,
  children_from path i pos (l1 ++ l2)
  = children_from path i pos l1
    ++ children_from path (i + length l1) (pos + blen (text_of l1)) l2.
Proof.
  induction l1 as [|c l1 IH]; intros l2 i pos.
  - cbn. rewrite !Nat.add_0_r. reflexivity.
  - cbn [app children_from length]. rewrite IH. cbn [app]. f_equal. f_equal.
    unfold text_of. cbn [flat_map]. rewrite blen_app, green_len_eq. f_equal; lia.
Qed.

Lemma children_from_green : forall path l i pos, map n_green (children_from path i pos l) = l.
Proof. induction l as [|c l IH]; intros i pos; cbn; [reflexivity|]. rewrite IH. reflexivity. Qed.

Lemma children_from_split : forall path l i pos a b, children_from path i pos l = a ++ b ->
  exists l1 l2, l = l1 ++ l2 /\ a = children_from path i pos l1 /\
                b = children_from path (i + length l1) (pos + blen (text_of l1)) l2.
Proof.
  intros path l. induction l as [|c l IH]; intros i pos a b H.
  - cbn in H. symmetry in H. apply app_eq_nil in H. destruct H as [-> ->]. exists [], []. repeat split.
  - destruct a as [|x a].
    + cbn [app] in H. exists [], (c :: l). cbn. rewrite !Nat.add_0_r. repeat split. symmetry. exact H.
    + cbn [children_from app] in H. injection H as <- H.
      destruct (IH _ _ _ _ H) as (l1 & l2 & -> & -> & ->). exists (c :: l1), l2.
      cbn [app children_from length]. unfold text_of. cbn [flat_map].
      rewrite blen_app, green_len_eq. repeat split. f_equal; lia.
Qed.

Lemma leading_len_eq : forall g, sum_len (first_leading g) = leading_len g.
Proof.
  intro g. unfold first_leading, leading_len. rewrite green_tokens_eq. destruct (tokens g); reflexivity.
Qed.

Lemma filter_nodes : forall path cs i pos,
  forallb (fun c => match c with GNode _ _ => true | GTok _ => false end) cs = true ->
  filter is_node (children_from path i pos cs) = children_from path i pos cs.
Proof.
  induction cs as [|c cs IH]; intros i pos H; [reflexivity|]. cbn [forallb] in H.
  apply andb_prop in H. destruct H as [H1 H2]. cbn [children_from filter].
  unfold is_node at 1. cbn [n_green]. destruct c; [|discriminate]. rewrite IH by exact H2. reflexivity.
Qed.

(** Tokens that can be taken apart *)
Definition apart (t : tok) : Prop := exists p, take_apart t = Some p.

Lemma cut_spec : forall ps t xs r, cut ps t = Some (xs, r) -> t = pieces_text xs ++ r /\ ps = lens xs.
Proof.
  induction ps as [|[k n] ps IH]; intros t xs r H; cbn in H.
  - injection H as <- <-. split; reflexivity.
  - destruct (split_at n t) as [[x t']|] eqn:S; [|discriminate].
    destruct (cut ps t') as [[ys r']|] eqn:C; [|discriminate]. injection H as <- <-.
    destruct (IH _ _ _ C) as [-> ->]. apply split_at_sound in S. destruct S as [-> <-].
    rewrite pieces_text_cons, <- app_assoc. split; reflexivity.
Qed.

Lemma take_apart_spec : forall t p, take_apart t = Some p ->
  tk_text t = parts_text p /\ tk_leading t = lens (p_leading p) /\ tk_trailing t = lens (p_trailing p).
Proof.
  intros t p H. unfold take_apart in H.
  destruct (cut (tk_leading t) (tk_text t)) as [[lead r]|] eqn:C; [|discriminate].
  destruct (split_at (blen r - total (tk_trailing t)) r) as [[own r2]|] eqn:S; [|discriminate].
  destruct (cut (tk_trailing t) r2) as [[trail [|? ?]]|] eqn:C2; try discriminate.
  injection H as <-. cbn. apply cut_spec in C, C2. destruct C as [C1 C3], C2 as [C4 C5].
  apply split_at_sound in S. destruct S as [-> _]. rewrite app_nil_r in C4. subst r2.
  unfold parts_text. cbn. auto.
Qed.

Lemma leading_len_le : forall g, Forall apart (tokens g) -> leading_len g <= blen (tree_text g).
Proof.
  intros g F. unfold leading_len, tree_text. destruct (tokens g) as [|t ts]; [lia|].
  apply Forall_cons_iff in F. destruct F as [[p A] _]. apply take_apart_spec in A.
  destruct A as (A1 & A2 & _). rewrite A2, total_lens. cbn [flat_map].
  rewrite blen_app, A1. unfold parts_text. rewrite !blen_app. lia.
Qed.

Lemma text_of_app : forall a b, text_of (a ++ b) = text_of a ++ text_of b.
Proof. intros. apply flat_map_app. Qed.

Lemma text_of_cons : forall a b, text_of (a :: b) = tree_text a ++ text_of b.
Proof. reflexivity. Qed.


(** ** The deepest list *)
Lemma trailing_len_eq : forall g, sum_len (last_trailing g) = trailing_len g.
Proof.
  intro g. unfold last_trailing, trailing_len. change (green_tokens g) with (tokens g).
  destruct (rev (tokens g)); reflexivity.
Qed.

Lemma contained_start : forall s path pos g,
  is_contained false s {| n_path := path; n_pos := pos; n_green := g |} = true <-> holds_start s pos g.
Proof.
  intros. unfold is_contained, contains, range_with_trivia, holds_start. cbn [fst snd n_pos n_green].
  rewrite andb_true_iff, Nat.leb_le, Nat.ltb_lt, green_len_eq. reflexivity.
Qed.

Lemma contained_end : forall e path pos g,
  is_contained true e {| n_path := path; n_pos := pos; n_green := g |} = true <-> holds_end e pos g.
Proof.
  intros. unfold is_contained, contains_inclusive, trimmed_range, holds_end. cbn [fst snd n_pos n_green].
  rewrite andb_true_iff, !Nat.leb_le, green_len_eq, leading_len_eq, trailing_len_eq. reflexivity.
Qed.

Definition below (end_ : bool) (off : nat) (n : snode) (cs : list snode) : list snode :=
  flat_map (fun c => visit end_ off (n_green c) n (n_path c) (n_pos c)) cs.

(** Nothing is found in children that end before, or start behind, the offset. *)
Lemma visit_outside : forall end_ off n c, is_contained end_ off c = false ->
  visit end_ off (n_green c) n (n_path c) (n_pos c) = [].
Proof.
  intros end_ off n [p q [k cs|t]] H; [|reflexivity]. cbn [n_green n_path n_pos].
  rewrite visit_node, H. reflexivity.
Qed.

Lemma below_left : forall (end_ : bool) off n path l i pos,
  (if end_ then pos + blen (text_of l) < off else pos + blen (text_of l) <= off) ->
  below end_ off n (children_from path i pos l) = [].
Proof.
  intros end_ off n path l. induction l as [|c l IH]; intros i pos H; [reflexivity|].
  rewrite text_of_cons, blen_app in H. cbn [children_from below flat_map].
  rewrite visit_outside.
  - apply IH. rewrite green_len_eq. destruct end_; lia.
  - apply not_true_iff_false. intro C. destruct end_.
    + apply contained_end in C. destruct C as [_ C]. lia.
    + apply contained_start in C. destruct C as [_ C]. lia.
Qed.

Lemma below_right : forall off n path l i pos, off < pos ->
  below false off n (children_from path i pos l) = [].
Proof.
  intros off n path l. induction l as [|c l IH]; intros i pos H; [reflexivity|].
  cbn [children_from below flat_map]. rewrite visit_outside; [apply IH; lia|].
  apply not_true_iff_false. intro C. apply contained_start in C. destruct C as [C _]. lia.
Qed.

Lemma inner_split : forall end_ off path pos k l c r,
  let n := {| n_path := path; n_pos := pos; n_green := GNode k (l ++ c :: r) |} in
  let q := pos + blen (text_of l) in
  let i := 0 + length l in
  inner end_ off n
  = below end_ off n (children_from path 0 pos l)
    ++ visit end_ off c n (path ++ [i]) q
    ++ below end_ off n (children_from path (S i) (q + green_len c) r).
Proof.
  intros end_ off path pos k l c r n q i. unfold inner, children. cbn [n n_green n_path n_pos].
  fold n. rewrite children_from_app. cbn [children_from]. unfold below.
  rewrite flat_map_app. cbn [flat_map n_green n_path n_pos]. reflexivity.
Qed.

Lemma below_head : forall end_ off n cs, pushed n = [n] ->
  below end_ off n cs = [] \/ exists r, below end_ off n cs = n :: r.
Proof.
  intros end_ off n cs P. induction cs as [|[p q [k gs|t]] cs IH]; [left; reflexivity| |exact IH].
  cbn [below flat_map n_green n_path n_pos]. rewrite visit_node, P.
  destruct (is_contained _ _ _); [|exact IH]. right. eexists. reflexivity.
Qed.

Lemma both_chains : forall s e g p g' p', within s e g p g' p' -> list_of_both s e g' p' -> forall path,
  exists ch m D D',
    n_green m = g' /\ n_pos m = p' /\ Forall (placed_node g' p') D /\
    inner false s {| n_path := path; n_pos := p; n_green := g |} = ch ++ m :: D /\
    inner true e {| n_path := path; n_pos := p; n_green := g |} = ch ++ m :: D'.
Proof.
  induction 1 as [g p|k l k' cs r p q g' p' -> HS HE HE2 W IH]; intros LB path.
  - destruct LB as [(l & k & cs & r & -> & HS) (l2 & k2 & cs2 & r2 & E & HE)].
    set (M := GNode R_EXPRESSION_LIST (l ++ GNode k cs :: r)) in *.
    set (n := {| n_path := path; n_pos := p; n_green := M |}).
    assert (PM : pushed n = [n]) by reflexivity.
    assert (S1 : exists D, inner false s n = n :: D /\ Forall (placed_node M p) D).
    { exists (inner false s {| n_path := path ++ [0 + length l]; n_pos := p + blen (text_of l); n_green := GNode k cs |}).
      split.
      - unfold n, M. rewrite inner_split. fold M. fold n.
        rewrite below_left by exact (proj1 HS). rewrite visit_node.
        rewrite (proj2 (contained_start _ _ _ _) HS), PM.
        rewrite below_right; [rewrite app_nil_r; reflexivity|].
        rewrite green_len_eq. exact (proj2 HS).
      - apply (Forall_impl (P := list_node M p)); [intros x Hx; exact (proj1 Hx)|]. apply inner_lists.
        exists (flat_map tree_text l), (flat_map tree_text r). split; [|reflexivity].
        pose proof (sub_down R_EXPRESSION_LIST l (GNode k cs) r [] (GNode k cs) [] (sub_here _)) as D.
        rewrite app_nil_r in D. exact D. }
    assert (S2 : exists D', inner true e n = n :: D').
    { unfold n. rewrite E. rewrite inner_split. rewrite <- E. fold n.
      rewrite visit_node, (proj2 (contained_end _ _ _ _) HE), PM.
      destruct (below_head true e n (children_from path 0 p l2) PM) as [->|(r' & ->)];
        eexists; reflexivity. }
    destruct S1 as (D & S1 & S3), S2 as (D' & S2).
    exists [], n, D, D'. split; [reflexivity|]. split; [reflexivity|]. split; [exact S3|]. split; assumption.
  - destruct (IH LB (path ++ [0 + length l])) as (ch & m & D & D' & M1 & M2 & M3 & I1 & I2).
    set (n := {| n_path := path; n_pos := p; n_green := GNode k (l ++ GNode k' cs :: r) |}).
    exists (pushed n ++ ch), m, D,
      (D' ++ below true e n (children_from path (S (0 + length l)) (p + blen (text_of l) + green_len (GNode k' cs)) r)).
    split; [exact M1|]. split; [exact M2|]. split; [exact M3|]. split.
    + unfold n at 1. rewrite inner_split. fold n.
      rewrite below_left by exact (proj1 HS). rewrite visit_node.
      rewrite (proj2 (contained_start _ _ _ _) HS), I1.
      rewrite below_right by (rewrite green_len_eq; exact (proj2 HS)).
      rewrite app_nil_r, <- app_assoc. reflexivity.
    + unfold n at 1. rewrite inner_split. fold n.
      rewrite below_left by (destruct HE as [HE _]; lia). rewrite visit_node.
      rewrite (proj2 (contained_end _ _ _ _) HE), I2.
      rewrite <- !app_assoc. reflexivity.
Qed.

Lemma path_eqb_refl : forall p, path_eqb p p = true.
Proof. induction p; cbn; [reflexivity|]. rewrite Nat.eqb_refl. exact IHp. Qed.

Lemma common_last_prefix : forall ch m D D' acc,
  exists n, common_last (ch ++ m :: D) (ch ++ m :: D') acc = Some n /\ (n = m \/ In n D).
Proof.
  induction ch as [|x ch IH]; intros m D D' acc; cbn [app common_last]; rewrite path_eqb_refl; [|apply IH].
  assert (G : forall D D' z, exists n, common_last D D' (Some z) = Some n /\ (n = z \/ In n D)).
  { induction D0 as [|a D0 IHD]; intros D0' z; [exists z; auto|].
    destruct D0' as [|b D0']; [exists z; auto|]. cbn [common_last].
    destruct (path_eqb (n_path a) (n_path b)); [|exists z; auto].
    destruct (IHD D0' a) as (n & H1 & H2). exists n. split; [exact H1|]. right.
    destruct H2 as [->|H2]; [left; reflexivity|right; exact H2]. }
  apply G.
Qed.

Lemma chosen_deepest : forall root s e n,
  common_last (find_expression_lists false s root) (find_expression_lists true e root) None = Some n ->
  deepest root s e (n_green n) (n_pos n).
Proof.
  intros root s e n C g' p' W LB.
  destruct (both_chains s e root 0 g' p' W LB []) as (ch & m & D & D' & M1 & M2 & M3 & I1 & I2).
  rewrite !find_inner, I1, I2 in C.
  destruct (common_last_prefix ch m D D' None) as (n' & C' & Hn). rewrite C in C'. injection C' as <-.
  destruct Hn as [->|Hn].
  - subst. exists [], []. split; [constructor|cbn; lia].
  - exact (proj1 (Forall_forall _ _) M3 n Hn).
Qed.

(** There is a list as soon as one holds both ends. *)
Lemma chosen_exists : forall root s e g' p', within s e root 0 g' p' -> list_of_both s e g' p' ->
  exists n, common_last (find_expression_lists false s root) (find_expression_lists true e root) None = Some n.
Proof.
  intros root s e g' p' W LB.
  destruct (both_chains s e root 0 g' p' W LB []) as (ch & m & D & D' & M1 & M2 & M3 & I1 & I2).
  rewrite !find_inner, I1, I2.
  destruct (common_last_prefix ch m D D' None) as (n' & C' & Hn). exists n'. exact C'.
Qed.

Lemma lines_spec : forall root s e, sound_tree root -> logical_lines root s e <> [] ->
  exists a b path cs before run after i,
    sub_at root a (GNode R_EXPRESSION_LIST cs) b /\
    cs = before ++ run ++ after /\
    selected (blen a) s e before run after /\
    deepest root s e (GNode R_EXPRESSION_LIST cs) (blen a) /\
    logical_lines root s e
    = children_from path i (blen a + blen (text_of before)) run.
Proof.
  intros root s e [TA LN] NE. unfold logical_lines in *.
  destruct (common_last (find_expression_lists false s root) (find_expression_lists true e root) None)
    as [n|] eqn:C; [|congruence].
  destruct (common_last_in _ _ _ _ C) as [I|I]; [|discriminate].
  destruct (proj1 (Forall_forall _ _) (found_lists false s root) n I) as ((a & b & SB & P) & cs & G).
  destruct n as [path pos g]. cbn [n_green n_pos n_path] in *. subst g pos. cbn [Nat.add] in *.
  unfold children in *. cbn [n_green n_pos n_path] in *.
  assert (NN : forallb (fun c => match c with GNode _ _ => true | GTok _ => false end) cs = true).
  { pose proof (sub_lists _ _ _ _ SB LN) as L. cbn [lists_of_nodes] in L.
    apply andb_prop in L. destruct L as [_ L]. cbn in L. exact L. }
  rewrite (filter_nodes _ _ _ _ NN) in *.
  destruct (skip_while_split _ (fun n => negb (contains (range_with_trivia n) s))
              (children_from path 0 (blen a) cs)) as (x & E1 & F1 & H1).
  set (rest := skip_while _ _) in *.
  destruct (take_while_split _ (fun n => fst (trimmed_range n) <=? e) rest) as (z & E2 & F2 & H2).
  set (lines := take_while _ rest) in *.
  destruct (children_from_split _ _ _ _ _ _ E1) as (before & l2 & -> & -> & R1).
  rewrite R1 in E2. destruct (children_from_split _ _ _ _ _ _ E2) as (run & after & -> & R2 & R3).
  exists a, b, path, (before ++ run ++ after), before, run, after, (0 + length before).
  split; [exact SB|]. split; [reflexivity|].
  split; [|split; [exact (chosen_deepest root s e _ C)|exact R2]].
  rewrite R3 in H2. rewrite R2 in F2, NE.
  split; [|split].
  - destruct run as [|g r]; [cbn in NE; congruence|]. exists g, r. split; [reflexivity|].
    rewrite R1 in H1. cbn [app children_from] in H1. apply negb_false_iff in H1.
    unfold contains, range_with_trivia in H1. cbn [n_pos n_green fst snd] in H1.
    apply andb_prop in H1. destruct H1 as [A B]. apply Nat.leb_le in A. apply Nat.ltb_lt in B.
    rewrite green_len_eq in B. auto.
  - intros r1 g r2 ->. rewrite children_from_app in F2. apply Forall_app in F2.
    destruct F2 as [_ F2]. cbn [children_from] in F2. apply Forall_cons_iff in F2.
    destruct F2 as [F2 _]. unfold trimmed_range in F2. cbn [fst n_pos n_green] in F2.
    apply Nat.leb_le in F2. rewrite leading_len_eq in F2. exact F2.
  - intros a1 g a2 ->. destruct a1 as [|g0 a1].
    + cbn [app children_from] in H2. unfold trimmed_range in H2. cbn [fst n_pos n_green] in H2.
      apply Nat.leb_gt in H2. rewrite leading_len_eq in H2. cbn. lia.
    + cbn [app children_from] in H2. unfold trimmed_range in H2. cbn [fst n_pos n_green] in H2.
      apply Nat.leb_gt in H2. rewrite leading_len_eq in H2.
      assert (leading_len g0 <= blen (tree_text g0)).
      { apply leading_len_le. pose proof (sub_tokens _ _ _ _ SB _ TA) as T.
        cbn [tokens] in T. rewrite !flat_map_app in T. apply Forall_app in T. destruct T as [_ T].
        apply Forall_app in T. destruct T as [_ T]. apply Forall_app in T. destruct T as [T _].
        cbn [flat_map] in T. apply Forall_app in T. exact (proj1 T). }
      rewrite text_of_cons, blen_app. lia.
Qed.

(** ** The range to be replaced *)
Lemma find_start_spec : forall xs pos,
  match find_start pos (lens xs) with
  | Some a => a = pos + blen (leading_blank xs)
  | None => leading_blank xs = pieces_text xs
  end.
Proof.
  induction xs as [|[k x] xs IH]; intro pos; [reflexivity|]. cbn [lens map find_start leading_blank].
  unfold is_blank, blank. cbn [fst snd]. fold (lens xs).
  destruct k; try (specialize (IH (pos + blen x)); destruct (find_start (pos + blen x) (lens xs));
    [rewrite IH, blen_app; lia | rewrite pieces_text_cons, IH; reflexivity]).
  cbn. lia.
Qed.

Lemma leading_blank_prefix : forall xs, exists r, pieces_text xs = leading_blank xs ++ r.
Proof.
  induction xs as [|[k x] xs (r & IH)]; [exists []; reflexivity|]. cbn [leading_blank].
  rewrite pieces_text_cons. unfold blank. cbn [fst snd].
  destruct k; [| |exists (x ++ pieces_text xs); reflexivity];
    exists r; rewrite IH, app_assoc; reflexivity.
Qed.

Lemma trailing_blank_snoc : forall xs p,
  trailing_blank (xs ++ [p]) = if blank p then trailing_blank xs ++ snd p else [].
Proof.
  induction xs as [|q xs IH]; intro p.
  - cbn. destruct (blank p); cbn; [rewrite app_nil_r|]; reflexivity.
  - change ((q :: xs) ++ [p]) with (q :: (xs ++ [p])). cbn [trailing_blank].
    rewrite IH. cbn [forallb]. rewrite forallb_app. cbn [forallb]. rewrite andb_true_r.
    destruct (blank p) eqn:B.
    + rewrite andb_true_r. destruct (blank q && forallb blank xs) eqn:Q; [|reflexivity].
      change (q :: xs ++ [p]) with ((q :: xs) ++ [p]). rewrite pieces_text_app. cbn.
      rewrite app_nil_r. reflexivity.
    + rewrite !andb_false_r. reflexivity.
Qed.

Lemma find_end_spec : forall xs pos, blen (pieces_text xs) <= pos ->
  match find_end pos (rev (lens xs)) with
  | Some b => b = pos - blen (trailing_blank xs)
  | None => trailing_blank xs = pieces_text xs
  end.
Proof.
  induction xs as [|[k x] xs IH] using rev_ind; intros pos H; [reflexivity|].
  unfold lens. rewrite map_app, rev_app_distr. cbn [map rev app find_end]. fold (lens xs).
  rewrite trailing_blank_snoc. rewrite pieces_text_app, blen_app in H. cbn in H. rewrite app_nil_r in H.
  unfold is_blank, blank. cbn [fst snd].
  destruct k; try (specialize (IH (pos - blen x) ltac:(lia));
    destruct (find_end (pos - blen x) (rev (lens xs)));
    [rewrite IH, blen_app; lia
    | rewrite IH, pieces_text_app; cbn; rewrite app_nil_r; reflexivity]).
  cbn. lia.
Qed.

Lemma trailing_blank_suffix : forall xs, exists r, pieces_text xs = r ++ trailing_blank xs.
Proof.
  induction xs as [|[k x] xs (r & IH)]; [exists []; reflexivity|]. cbn [trailing_blank].
  destruct (forallb blank ((k, x) :: xs)); [exists []; reflexivity|].
  exists (x ++ r). rewrite pieces_text_cons, IH, app_assoc. reflexivity.
Qed.


Lemma node_split : forall g, Forall apart (tokens g) ->
  exists mid, tree_text g = blank_before g ++ mid ++ blank_after g.
Proof.
  intros g F. unfold tree_text, blank_before, blank_after. destruct (tokens g) as [|t ts].
  { exists []. reflexivity. }
  destruct (rev (t :: ts)) as [|t2 ts2] eqn:R.
  { apply (f_equal (@length _)) in R. rewrite rev_length in R. discriminate. }
  assert (E : t :: ts = rev ts2 ++ [t2]).
  { rewrite <- (rev_involutive (t :: ts)), R. reflexivity. }
  pose proof F as F2. rewrite E in F2. apply Forall_app in F2. destruct F2 as [_ F2].
  apply Forall_cons_iff in F. destruct F as [[p A] _].
  apply Forall_cons_iff in F2. destruct F2 as [[q B] _].
  rewrite A, B. pose proof (take_apart_spec _ _ A) as (A1 & _ & _).
  pose proof (take_apart_spec _ _ B) as (B1 & _ & _).
  destruct (leading_blank_prefix (p_leading p)) as (r1 & L1).
  destruct (trailing_blank_suffix (p_trailing q)) as (r2 & L2).
  destruct (rev ts2) as [|t3 ts3] eqn:R2.
  - cbn in E. injection E as -> ->. rewrite A in B. injection B as <-.
    exists (r1 ++ p_own p ++ r2). cbn [flat_map]. rewrite app_nil_r, A1. unfold parts_text.
    rewrite L1, L2, <- !app_assoc. reflexivity.
  - cbn in E. injection E as -> ->.
    exists (r1 ++ p_own p ++ pieces_text (p_trailing p) ++ flat_map tk_text ts3
            ++ pieces_text (p_leading q) ++ p_own q ++ r2).
    cbn [flat_map]. rewrite flat_map_app. cbn [flat_map]. rewrite app_nil_r, A1, B1. unfold parts_text.
    rewrite L1, L2, <- !app_assoc. reflexivity.
Qed.

Lemma node_range : forall g mid path pos, Forall apart (tokens g) ->
  tree_text g = blank_before g ++ mid ++ blank_after g ->
  non_whitespace_range {| n_path := path; n_pos := pos; n_green := g |}
  = (pos + blen (blank_before g), pos + blen (blank_before g) + blen mid).
Proof.
  intros g mid path pos F E. unfold non_whitespace_range, trimmed_range. cbn [n_pos n_green fst snd].
  assert (L : pos + green_len g = pos + blen (blank_before g) + blen mid + blen (blank_after g)).
  { rewrite green_len_eq, E, !blen_app. lia. }
  f_equal.
  - unfold first_leading, blank_before. rewrite green_tokens_eq.
    destruct (tokens g) as [|t ts]; [cbn; lia|].
    apply Forall_cons_iff in F. destruct F as [[p A] _]. rewrite A.
    apply take_apart_spec in A. destruct A as (_ & A & _). rewrite A.
    pose proof (find_start_spec (p_leading p) pos) as X.
    destruct (find_start pos (lens (p_leading p))) as [a|]; [exact X|].
    rewrite X. f_equal. apply total_lens.
  - rewrite L. unfold blank_after, last_trailing in *. change (green_tokens g) with (tokens g) in *.
    destruct (rev (tokens g)) as [|t ts] eqn:R; [cbn in *; lia|].
    assert (In t (tokens g)) as I by (apply in_rev; rewrite R; left; reflexivity).
    destruct (proj1 (Forall_forall _ _) F t I) as [p A]. rewrite A in *.
    pose proof (take_apart_spec _ _ A) as (A1 & _ & A2). rewrite A2.
    assert (blen (pieces_text (p_trailing p)) <= green_len g) as Len.
    { rewrite green_len_eq. unfold tree_text. apply in_split in I. destruct I as (x & y & ->).
      rewrite flat_map_app. cbn [flat_map]. rewrite !blen_app, A1. unfold parts_text. rewrite !blen_app. lia. }
    pose proof (find_end_spec (p_trailing p)
                  (pos + blen (blank_before g) + blen mid + blen (trailing_blank (p_trailing p))) ltac:(lia)) as X.
    destruct (find_end _ (rev (lens (p_trailing p)))) as [b|]; [lia|].
    change (sum_len (lens (p_trailing p))) with (total (lens (p_trailing p))).
    rewrite total_lens, X. lia.
Qed.

Lemma text_of_one : forall g, text_of [g] = tree_text g.
Proof. intro g. unfold text_of. cbn. apply app_nil_r. Qed.

(** Covering the ranges of consecutive expressions. *)
Lemma cover_run : forall path r i pos A B, Forall (fun g => Forall apart (tokens g)) r ->
  A <= pos -> B <= pos ->
  exists E, fold_left cover (map non_whitespace_range (children_from path i pos r)) (A, B) = (A, E) /\
  match r with
  | [] => E = B
  | g :: r' => E + blen (blank_after (last (g :: r') g)) = pos + blen (text_of r)
  end.
Proof.
  intros path r. induction r as [|g r IH]; intros i pos A B F HA HB; [exists B; split; reflexivity|].
  apply Forall_cons_iff in F. destruct F as [Fg F].
  destruct (node_split g Fg) as (mid & SP). cbn [children_from map fold_left].
  rewrite (node_range g mid _ _ Fg SP). unfold cover at 2. cbn [fst snd].
  replace (Nat.min A (pos + blen (blank_before g))) with A by lia.
  replace (Nat.max B (pos + blen (blank_before g) + blen mid)) with (pos + blen (blank_before g) + blen mid) by lia.
  assert (L : green_len g = blen (blank_before g) + blen mid + blen (blank_after g)).
  { rewrite green_len_eq, SP, !blen_app. lia. }
  destruct (IH (S i) (pos + green_len g) A (pos + blen (blank_before g) + blen mid) F ltac:(lia) ltac:(lia))
    as (E & E1 & E2).
  exists E. split; [exact E1|]. rewrite text_of_cons, blen_app, <- green_len_eq.
  destruct r as [|g2 r]; [cbn [last]; change (text_of []) with (@nil char); cbn [blen]; subst E; lia|].
  change (last (g :: g2 :: r) g) with (last (g2 :: r) g).
  rewrite (last_default _ r g2 g g2). lia.
Qed.

Lemma run_range : forall path g r i pos, Forall (fun g => Forall apart (tokens g)) (g :: r) ->
  exists mid,
    text_of (g :: r) = blank_before g ++ mid ++ blank_after (last (g :: r) g) /\
    format_range (children_from path i pos (g :: r))
    = Some (pos + blen (blank_before g), pos + blen (blank_before g) + blen mid).
Proof.
  intros path g r i pos F. pose proof F as F0. apply Forall_cons_iff in F. destruct F as [Fg F].
  destruct (node_split g Fg) as (mid & SP). unfold format_range. cbn [children_from map].
  rewrite (node_range g mid _ _ Fg SP).
  assert (L : green_len g = blen (blank_before g) + blen mid + blen (blank_after g)).
  { rewrite green_len_eq, SP, !blen_app. lia. }
  destruct (cover_run path r (S i) (pos + green_len g) (pos + blen (blank_before g))
              (pos + blen (blank_before g) + blen mid) F ltac:(lia) ltac:(lia)) as (E & E1 & E2).
  rewrite E1. destruct r as [|g2 r].
  - exists mid. subst E. split; [|reflexivity]. rewrite text_of_one. exact SP.
  - assert (X : exists m2, text_of (g2 :: r) = m2 ++ blank_after (last (g2 :: r) g2)).
    { destruct (@exists_last _ (g2 :: r)) as (l & z & EL); [discriminate|]. rewrite EL, last_last.
      assert (Fz : Forall apart (tokens z)).
      { rewrite EL in F. apply Forall_app in F. destruct F as [_ F]. apply Forall_cons_iff in F. tauto. }
      destruct (node_split z Fz) as (mz & Sz). exists (text_of l ++ blank_before z ++ mz).
      rewrite text_of_app, text_of_one, Sz, <- !app_assoc. reflexivity. }
    destruct X as (m2 & X). exists (mid ++ blank_after g ++ m2).
    change (last (g :: g2 :: r) g) with (last (g2 :: r) g). rewrite ?(last_default _ r g2 g g2).
    split.
    + rewrite text_of_cons, X, SP, <- !app_assoc. reflexivity.
    + f_equal. f_equal. rewrite X, blen_app in E2. rewrite !blen_app. lia.
Qed.

(** ** The edits *)
Lemma build_one : forall s e x, s <= e ->
  build [{| i_start := s; i_end := e; i_insert := x |}] = Some [{| i_start := s; i_end := e; i_insert := x |}].
Proof. intros s e x H. cbn. reflexivity. Qed.

Lemma replace_one : forall enc en p old post x,
  let t := p ++ old ++ post in
  exists tes, replace_range_edit (blen p) (blen p + blen old) x (line_index_new t) enc en = Some tes /\
  (forall u, paired u -> normalize u = t -> no_cr x ->
     exists u', client_edits enc [] u tes u' /\ normalize u' = p ++ x ++ post /\ paired u' /\
                forall u2, client_edits enc [] u tes u2 -> u2 = u') /\
  (no_cr t -> forall u', client_edits enc [] (converted en t) tes u' <-> u' = converted en (p ++ x ++ post)).
Proof.
  intros enc en p old post x t.
  assert (SC : script 0 t [{| i_start := blen p; i_end := blen p + blen old; i_insert := x |}] (p ++ x ++ post))
    by (unfold t; econstructor; [lia|reflexivity|constructor]).
  destruct (edits_of_script enc t en _ _ _ _ SC [] eq_refl eq_refl) as [tes [T1 [T2 T3]]].
  exists tes. unfold replace_range_edit. rewrite build_one by lia. split; [exact T1|]. split.
  - intros u Pu Nu Nx. destruct (T2 [] u PNil Pu eq_refl Nu) as [u' [C1 C2]].
    destruct C2 as [Q1 Q2]; [constructor; [exact Nx|constructor]|].
    exists u'. split; [exact C1|]. split; [exact Q2|]. split; [exact Q1|].
    intros u2 H2. eapply client_deterministic; [exact H2|constructor|exact Pu|exact C1].
  - intros Nt u'. pose proof (T3 [] PNil eq_refl Nt) as C. split; [|intros ->; exact C].
    intro H. eapply client_deterministic; [exact H|constructor| |exact C].
    destruct en; cbn; [apply no_cr_paired; exact Nt|rewrite lf_to_crlf_spec; apply to_crlf_paired; exact Nt].
Qed.

Lemma range_client : forall parse fmt enc d u v r es,
  in_step parse enc d u v -> paired u -> fits parse (normalize u) ->
  range_formatting fmt false d r = Val (Edits es) ->
  exists s e a b before run after t mid g0,
    text_range enc (line_index_new (normalize u)) r = Val (s, e) /\
    sub_at (fst (parse (normalize u))) a (GNode R_EXPRESSION_LIST (before ++ run ++ after)) b /\
    selected (blen a) s e before run after /\
    deepest (fst (parse (normalize u))) s e (GNode R_EXPRESSION_LIST (before ++ run ++ after)) (blen a) /\
    fmt run = SubText t /\
    text_of run = blank_before (hd g0 run) ++ mid ++ blank_after (last run g0) /\
    let out := a ++ text_of before ++ blank_before (hd g0 run) ++ pop t
                 ++ blank_after (last run g0) ++ text_of after ++ b in
    (no_cr u -> d_endings d = Lf -> forall u', client_edits enc [] u es u' <-> u' = out) /\
    (u = to_crlf (normalize u) -> d_endings d = Crlf ->
       forall u', client_edits enc [] u es u' <-> u' = to_crlf out) /\
    (no_cr (pop t) -> exists u', client_edits enc [] u es u' /\ normalize u' = out /\ paired u' /\
       forall u2, client_edits enc [] u es u2 -> u2 = u').
Proof.
  intros parse fmt enc d u v r es [D1 [D2 [D3 [D4 D5]]]] Pu Fit H.
  unfold range_formatting in H. rewrite D2, D3, D5 in H.
  destruct (snd (parse (normalize u))) eqn:Er; [discriminate|].
  destruct (Fit Er) as [ST TT].
  destruct (text_range enc (line_index_new (normalize u)) r) as [[s e]| |] eqn:TR; try discriminate.
  set (root := fst (parse (normalize u))) in *.
  assert (NE : logical_lines root s e <> []).
  { intro X. rewrite X in H. discriminate. }
  destruct (lines_spec root s e ST NE) as (a & b & path & cs & before & run & after & i & SB & -> & SEL & DEEP & LL).
  rewrite LL in H.
  destruct run as [|g run]; [rewrite LL in NE; cbn in NE; congruence|].
  assert (FA : Forall (fun g => Forall apart (tokens g)) (g :: run)).
  { pose proof (sub_tokens _ _ _ _ SB _ (proj1 ST)) as T. cbn [tokens] in T.
    rewrite !flat_map_app in T. apply Forall_app in T. destruct T as [_ T].
    apply Forall_app in T. destruct T as [T _]. apply Forall_forall. intros x Ix.
    apply Forall_forall. intros y Iy.
    apply (proj1 (Forall_forall _ _) T). apply in_flat_map. exists x. auto. }
  destruct (run_range path g run i (blen a + blen (text_of before)) FA) as (mid & RT & FR).
  rewrite FR in H. rewrite children_from_green in H.
  destruct (fmt (g :: run)) as [| |t] eqn:Ef; try discriminate.
  pose proof (sub_text _ _ _ _ SB) as TX. rewrite tree_text_node in TX.
  change (flat_map tree_text (before ++ (g :: run) ++ after)) with (text_of (before ++ (g :: run) ++ after)) in TX.
  rewrite !text_of_app, RT in TX. fold root in TT. rewrite TX in TT.
  set (p := a ++ text_of before ++ blank_before g).
  set (post := blank_after (last (g :: run) g) ++ text_of after ++ b).
  assert (EN : normalize u = p ++ mid ++ post).
  { rewrite <- TT. unfold p, post. rewrite <- !app_assoc. reflexivity. }
  destruct (replace_one enc (d_endings d) p mid post (pop t)) as (tes & R1 & R2 & R3).
  cbn zeta in R1, R2, R3. rewrite <- EN in R1, R2, R3.
  replace (blen p) with (blen a + blen (text_of before) + blen (blank_before g)) in R1
    by (unfold p; rewrite !blen_app; lia).
  rewrite R1 in H. injection H as <-.
  exists s, e, a, b, before, (g :: run), after, t, mid, g. change (hd g (g :: run)) with g.
  split; [reflexivity|]. split; [exact SB|]. split; [exact SEL|]. split; [exact DEEP|]. split; [exact Ef|]. split; [exact RT|].
  intro out. assert (EO : p ++ pop t ++ post = out).
  { unfold p, post, out. rewrite <- !app_assoc. reflexivity. }
  rewrite EO in R2, R3. pose proof (normalize_paired_no_cr u Pu) as Nn.
  split; [|split].
  - intros Nu Ee. specialize (R3 Nn). rewrite Ee in R3. cbn in R3. rewrite (normalize_no_cr u Nu) in R3. exact R3.
  - intros Eu Ee. specialize (R3 Nn). rewrite Ee in R3. cbn in R3. rewrite !lf_to_crlf_spec in R3. rewrite Eu. exact R3.
  - intro Nx. apply R2; [exact Pu|reflexivity|exact Nx].
Qed.

(** ** A selection in an expression list is formatted *)
Fixpoint follow (n : snode) (path : list nat) : option snode :=
  match path with
  | [] => Some n
  | i :: r => match nth_error (children n) i with Some c => follow c r | None => None end
  end.

Lemma children_from_nth : forall path cs i pos j c, nth_error (children_from path i pos cs) j = Some c ->
  n_path c = path ++ [i + j].
Proof.
  induction cs as [|g cs IH]; intros i pos j c H; [destruct j; discriminate|]. destruct j as [|j]; cbn in H.
  - injection H as <-. cbn. rewrite Nat.add_0_r. reflexivity.
  - apply IH in H. rewrite H. f_equal. f_equal. lia.
Qed.

Lemma inner_follow : forall end_ off g path pos x,
  In x (inner end_ off {| n_path := path; n_pos := pos; n_green := g |}) ->
  (exists rel, n_path x = path ++ rel /\ follow {| n_path := path; n_pos := pos; n_green := g |} rel = Some x) /\
  (exists c, In c (children x) /\ is_node c = true /\ is_contained end_ off c = true).
Proof.
  intros end_ off g. induction g as [t|k cs IH] using green_ind'; intros path pos x H; [destruct H|].
  set (n := {| n_path := path; n_pos := pos; n_green := GNode k cs |}) in *.
  unfold inner in H. apply in_flat_map in H. destruct H as (c & Hc & Hx).
  pose proof (children_from_in _ _ _ _ _ Hc) as IC. cbn [n_green n] in IC.
  destruct (In_nth_error _ _ Hc) as [j Hj]. pose proof (children_from_nth _ _ _ _ _ _ Hj) as Pj.
  cbn [n_path n Nat.add] in Pj.
  destruct c as [cp cpos [ck ccs|ct]]; cbn [n_green n_path n_pos] in *; [|destruct Hx].
  rewrite visit_node in Hx. destruct (is_contained end_ off _) eqn:C; [|destruct Hx].
  apply in_app_or in Hx. destruct Hx as [Hx|Hx].
  - unfold pushed in Hx. destruct (kind_eqb (green_kind (n_green n)) R_EXPRESSION_LIST); [|destruct Hx].
    destruct Hx as [<-|[]]. split.
    + exists []. rewrite app_nil_r. split; reflexivity.
    + eexists. split; [exact Hc|]. split; [reflexivity|exact C].
  - destruct (proj1 (Forall_forall _ _) IH _ IC cp cpos x Hx) as [(rel & R1 & R2) R3].
    split; [|exact R3]. exists (j :: rel). split.
    + rewrite R1, Pj, <- app_assoc. reflexivity.
    + cbn [follow]. rewrite Hj. exact R2.
Qed.

Lemma common_last_both : forall a b acc n, common_last a b acc = Some n ->
  acc = Some n \/ (In n a /\ exists m, In m b /\ path_eqb (n_path n) (n_path m) = true).
Proof.
  induction a as [|x a IH]; intros b acc n H; [left; exact H|].
  destruct b as [|y b]; [left; exact H|]. cbn [common_last] in H.
  destruct (path_eqb (n_path x) (n_path y)) eqn:E; [|left; exact H].
  destruct (IH _ _ _ H) as [I|(I1 & m & I2 & I3)].
  - injection I as ->. right. split; [left; reflexivity|]. exists y. split; [left; reflexivity|exact E].
  - right. split; [right; exact I1|]. exists m. split; [right; exact I2|exact I3].
Qed.

Lemma path_eqb_eq : forall a b, path_eqb a b = true -> a = b.
Proof.
  induction a as [|x a IH]; intros [|y b] H; cbn in H; try discriminate; [reflexivity|].
  apply andb_prop in H. destruct H as [H1 H2]. apply Nat.eqb_eq in H1. subst y. f_equal. apply IH. exact H2.
Qed.

Lemma skip_while_all : forall (A : Type) (p : A -> bool) l x, In x l -> p x = false -> skip_while p l <> [].
Proof.
  induction l as [|y l IH]; intros x H E; [destruct H|]. cbn [skip_while]. destruct (p y) eqn:Ey; [|discriminate].
  apply (IH x); [|exact E]. destruct H as [->|H]; [congruence|exact H].
Qed.

Lemma lines_exist : forall root s e, sound_tree root -> s < e -> forall g' p',
  within s e root 0 g' p' -> list_of_both s e g' p' -> logical_lines root s e <> [].
Proof.
  intros root s e [TA LN] LT g' p' W LB. destruct (chosen_exists root s e g' p' W LB) as [n C].
  unfold logical_lines. rewrite C.
  destruct (common_last_both _ _ _ _ C) as [X|(I1 & m & I2 & PE)]; [discriminate|].
  pose proof (proj1 (Forall_forall _ _) (found_lists false s root) n I1) as ((a & b & SB & P) & cs & G).
  rewrite find_inner in I1, I2. apply inner_follow in I1, I2.
  destruct I1 as [(rel & R1 & R2) (c1 & K1 & K2 & K3)], I2 as [(rel' & R1' & R2') (c2 & J1 & J2 & J3)].
  apply path_eqb_eq in PE. cbn [app] in R1, R1'.
  assert (rel' = rel) by congruence. subst rel'. assert (m = n) by congruence. subst m.
  destruct n as [path pos g]. cbn [n_green n_pos n_path] in *. subst g pos. cbn [Nat.add] in *.
  unfold children in *. cbn [n_green n_pos n_path] in *.
  assert (NN : forallb (fun c => match c with GNode _ _ => true | GTok _ => false end) cs = true).
  { pose proof (sub_lists _ _ _ _ SB LN) as L. cbn [lists_of_nodes] in L.
    apply andb_prop in L. destruct L as [_ L]. cbn in L. exact L. }
  rewrite (filter_nodes _ _ _ _ NN) in *.
  destruct (skip_while_split _ (fun n => negb (contains (range_with_trivia n) s))
              (children_from path 0 (blen a) cs)) as (x & E1 & F1 & H1).
  set (rest := skip_while _ _) in *.
  assert (NE : rest <> []).
  { apply (skip_while_all _ _ _ c1 K1). apply negb_false_iff. exact K3. }
  destruct rest as [|y rest]; [congruence|].
  destruct (children_from_split _ _ _ _ _ _ E1) as (before & l2 & Ecs & Ex & R).
  destruct l2 as [|gy l2]; [discriminate|]. cbn [children_from] in R. injection R as -> _.
  set (q := blen a + blen (text_of before)) in *.
  cbn [take_while]. 
  assert (HY : holds_start s q gy).
  { apply negb_false_iff in H1. apply (contained_start s (path ++ [0 + length before]) q gy). exact H1. }
  assert (Fg : forall g, In g cs -> leading_len g <= blen (tree_text g)).
  { intros g Ig. apply leading_len_le. pose proof (sub_tokens _ _ _ _ SB _ TA) as T.
    cbn [tokens] in T. apply Forall_forall. intros t It. apply (proj1 (Forall_forall _ _) T).
    apply in_flat_map. exists g. auto. }
  assert (Ly : q + leading_len gy <= e).
  { apply in_split in J1. destruct J1 as (u1 & u2 & J1).
    destruct (children_from_split _ _ _ _ _ _ J1) as (l3 & l4 & E3 & _ & R4).
    destruct l4 as [|gz l4]; [discriminate|]. cbn [children_from] in R4. injection R4 as -> _.
    apply contained_end in J3. destruct J3 as [Z1 Z2]. destruct HY as [Y1 Y2].
    assert (Q : before ++ gy :: l2 = l3 ++ gz :: l4) by congruence.
    destruct (app_eq_app _ _ _ _ Q) as (w & [[W1 W2]|[W1 W2]]).
    - destruct w as [|w1 w].
      + cbn in W2. injection W2 as -> ->. rewrite app_nil_r in W1. subst before. unfold q. exact Z1.
      + injection W2 as -> W2. subst before. exfalso.
        unfold q in Y1. rewrite text_of_app, blen_app, text_of_cons, blen_app in Y1. lia.
    - destruct w as [|w1 w].
      + cbn in W2. injection W2 as -> ->. rewrite app_nil_r in W1. subst l3. unfold q. exact Z1.
      + injection W2 as -> W2. subst l3.
        rewrite text_of_app, blen_app, text_of_cons, blen_app in Z1.
        specialize (Fg w1). rewrite Ecs in Fg. specialize (Fg (in_elt _ _ _)). unfold q. lia. }
  unfold trimmed_range. cbn [fst n_pos n_green]. rewrite leading_len_eq.
  destruct (Nat.leb_spec (q + leading_len gy) e) as [_|X]; [discriminate|lia].
Qed.

(** The list of an expression list's expressions that is formatted. *)
Lemma range_sent : forall parse fmt enc d u v r s e,
  in_step parse enc d u v -> fits parse (normalize u) -> snd (parse (normalize u)) = false ->
  text_range enc (line_index_new (normalize u)) r = Val (s, e) -> s < e ->
  (exists g p, within s e (fst (parse (normalize u))) 0 g p /\ list_of_both s e g p) ->
  (forall run, exists t, fmt run = SubText t) ->
  exists es, range_formatting fmt false d r = Val (Edits es).
Proof.
  intros parse fmt enc d u v r s e [D1 [D2 [D3 [D4 D5]]]] Fit Er TR LT (g' & p' & W & LB) FM.
  unfold range_formatting. rewrite D2, D3, D5, Er, TR. destruct (Fit Er) as [ST TT].
  set (root := fst (parse (normalize u))) in *.
  pose proof (lines_exist root s e ST LT g' p' W LB) as NE.
  destruct (lines_spec root s e ST NE) as (a & b & path & cs & before & run & after & i & SB & -> & SEL & DEEP & LL).
  rewrite LL. destruct run as [|g run]; [rewrite LL in NE; cbn in NE; congruence|].
  assert (FA : Forall (fun g => Forall apart (tokens g)) (g :: run)).
  { pose proof (sub_tokens _ _ _ _ SB _ (proj1 ST)) as T. cbn [tokens] in T.
    rewrite !flat_map_app in T. apply Forall_app in T. destruct T as [_ T].
    apply Forall_app in T. destruct T as [T _]. apply Forall_forall. intros x Ix.
    apply Forall_forall. intros y Iy.
    apply (proj1 (Forall_forall _ _) T). apply in_flat_map. exists x. auto. }
  destruct (run_range path g run i (blen a + blen (text_of before)) FA) as (mid & RT & FR).
  rewrite FR, children_from_green. destruct (FM (g :: run)) as [t ->].
  pose proof (sub_text _ _ _ _ SB) as TX. rewrite tree_text_node in TX.
  change (flat_map tree_text (before ++ (g :: run) ++ after)) with (text_of (before ++ (g :: run) ++ after)) in TX.
  rewrite !text_of_app, RT in TX. fold root in TT. rewrite TX in TT.
  set (p := a ++ text_of before ++ blank_before g).
  set (post := blank_after (last (g :: run) g) ++ text_of after ++ b).
  assert (EN : normalize u = p ++ mid ++ post).
  { rewrite <- TT. unfold p, post. rewrite <- !app_assoc. reflexivity. }
  destruct (replace_one enc (d_endings d) p mid post (pop t)) as (tes & R1 & _).
  cbn zeta in R1. rewrite <- EN in R1.
  replace (blen p) with (blen a + blen (text_of before) + blen (blank_before g)) in R1
    by (unfold p; rewrite !blen_app; lia).
  rewrite R1. exists tes. reflexivity.
Qed.

Lemma range_panic : forall parse fmt enc d u v r ex,
  in_step parse enc d u v -> range_formatting fmt ex d r = Panic ->
  text_range enc (line_index_new (normalize u)) r = Panic.
Proof.
  intros parse fmt enc d u v r ex [D1 [D2 [D3 [D4 D5]]]] H. unfold range_formatting in H.
  rewrite D2, D3, D5 in H. destruct ex; [discriminate|]. destruct (snd _); [discriminate|].
  destruct (text_range _ _ _) as [[s e]| |]; [|discriminate|reflexivity].
  destruct (format_range _) as [[a b]|]; [|discriminate]. destruct (fmt _); try discriminate.
  destruct (replace_range_edit _ _ _ _ _ _); discriminate.
Qed.
